(** Property C84: recorded multipliers have the right signs and are complementary to the
    constraints of the model, up to the tolerances of the solver and rounding, in binary64. *)
From Verif Require Import Base Num Node NodeInd NodeDiff NodeStd Constraint Matrix Problem ModelStd Model
     ExprSpec World Sim MapProofs StdPropProofs EvalProofs GradProofs MatSpec MatrixProofs ProblemProofs PartsProofs BuildProofs BuildMain ModelSpec EvalRun StdFacts
     Api ApiProofs ModelApi StdMain HistProofs OccProofs ConstrEquiv Properties_Constr Properties_Std ModelExample SolveProofs Properties_Solve TextSpec ExactSpec RoundSpec FmtProofs FloatProofs FloatOps RoundOps RoundProofs Properties_Text Properties_Exact Properties_Round
     NoFun RoundCoef CoefSpec CoefProofs Properties_Coef PostProofs HashProofs PolySpec BitSpec BitProofs Properties_Bit DerEstSpec DerEstProofs Properties_DerEst Properties_Full PlaceSpec SlotAny Properties_Place KktSpec KktProofs AffSpec Properties_Aff LagSpec Properties_Lag TolSpec SlackSpec.
From Coq Require Import Reals Lra Lia Classical_Prop Floats.SpecFloat.
From Flocq Require Import Core.
Import RoundSpec.
Local Open Scope R_scope.

(** ** Sums *)
Lemma total_scal {A} (f : A -> R) a l : total (map (fun x => a * f x) l) = a * total (map f l).
Proof. induction l as [|x l IH]; cbn [map]; [unfold total; cbn; ring|]. rewrite !total_cons, IH. ring. Qed.
Lemma total_abs {A} (f : A -> R) l : Rabs (total (map f l)) <= total (map (fun x => Rabs (f x)) l).
Proof.
  induction l as [|x l IH]; cbn [map]; [unfold total; cbn; rewrite Rabs_R0; lra|]. rewrite !total_cons.
  eapply Rle_trans; [apply Rabs_triang|]. lra.
Qed.
Lemma total_le {A} (f g : A -> R) l : (forall x, In x l -> f x <= g x) -> total (map f l) <= total (map g l).
Proof.
  induction l as [|x l IH]; intros Hl; cbn [map]; [lra|]. rewrite !total_cons. specialize (IH (fun y Hy => Hl y (or_intror Hy))).
  pose proof (Hl x (or_introl eq_refl)). lra.
Qed.
Lemma total_minus {A} (f g : A -> R) l : total (map (fun x => f x - g x) l) = total (map f l) - total (map g l).
Proof. induction l as [|x l IH]; cbn [map]; [unfold total; cbn; ring|]. rewrite !total_cons, IH. ring. Qed.
(** A sum over different cells is at most the sum over all of them. *)
Lemma total_cells n (h : nat -> R) L : NoDup L -> (forall c, In c L -> (c < n)%nat) -> (forall c, (c < n)%nat -> 0 <= h c) -> total (map h L) <= cells n h.
Proof.
  intros Hnd. revert h. induction Hnd as [|a L Ha Hnd IH]; intros h HL Hh; cbn [map].
  - unfold total. cbn [fold_right]. rewrite <- (cells_0 n (fun _ => 0)) by auto. apply cells_le. exact Hh.
  - rewrite total_cons.
    assert (Ec : cells n h = h a + cells n (fun c => if Nat.eqb c a then 0 else h c)).
    { rewrite <- (cells_one n a h (HL a (or_introl eq_refl))), <- cells_plus. apply cells_ext. intros c. destruct (Nat.eqb c a); ring. }
    rewrite Ec. apply Rplus_le_compat_l.
    rewrite (total_ext h (fun c => if Nat.eqb c a then 0 else h c) L).
    + apply IH; [intros c Hc; apply HL; right; exact Hc|]. intros c Hc. destruct (Nat.eqb c a); [lra|auto].
    + intros c Hc. destruct (Nat.eqb c a) eqn:E; [|reflexivity]. apply Nat.eqb_eq in E. subst. contradiction.
Qed.

Section C84.
  Variables fsin fcos : F -> F.
  Notation NF := (NumF fsin fcos).
  Local Instance num_f : Num F := NF.
  Hypotheses (Hsin : accurate fsin sin) (Hcos : accurate fcos cos).
  Notation ev vs n := (@evaluate F NF vs n).
  Notation can := (@ExprSpec.canonical F NF).

  (** An affine expression is its value at zero plus the sum of its derivatives times the variables. *)
  Lemma affine_real L (r : nat -> R) (n : node F) : NoDup L -> (forall w, occurs w n -> In (nid w) L) -> can n -> p_affine (@std_properties F NF n) = true ->
    real_value n r = real_value n (fun _ => 0) + total (map (fun c => dval c n r * r c) L).
  Proof.
    intros Hnd. induction n as [i w|i st kd|i args IH|i a IH|i a b IHa IHb|i a b IHa IHb|i a IH] using node_ind'; intros Ho Hc Ha; try discriminate Ha.
    - cbn [real_value dval]. rewrite total_zero; [ring|]. intros c _. ring.
    - cbn [real_value dval]. rewrite (total_one _ L i Hnd).
      + rewrite Nat.eqb_refl. ring.
      + exact (Ho (NVar i st kd) (conj eq_refl (sub_refl _))).
      + intros c _ Hne. rewrite (proj2 (Nat.eqb_neq i c)) by congruence. ring.
    - pose proof (affine_args fsin fcos _ _ Ha) as Hl.
      assert (G : Forall (fun a => real_value a r = real_value a (fun _ => 0) + total (map (fun c => dval c a r * r c) L)) args).
      { rewrite Forall_forall in *. intros a Hin. apply IH; [exact Hin| |exact (can_arg fsin fcos a _ Hc Hin)|exact (Hl a Hin)].
        intros w [Hv Hs]. apply Ho. split; [exact Hv|]. eapply sub_arg; [exact Hin|exact Hs]. }
      cbn [real_value dval]. clear -G. induction G as [|a l Ha _ IH].
      + cbn. rewrite total_zero; [ring|]. intros c _. ring.
      + cbn [fold_right map]. cbn [fold_right map] in IH. rewrite Ha, IH.
        rewrite (total_ext (fun c => (dval c a r + fold_right (fun a0 s => dval c a0 r + s) 0 l) * r c)
                           (fun c => dval c a r * r c + fold_right (fun a0 s => dval c a0 r + s) 0 l * r c)) by (intros; ring).
        rewrite total_plus. ring.
    - destruct (affine_div fsin fcos _ _ _ Hc Ha) as [(j & v & ->) Hx].
      assert (G : real_value a r = real_value a (fun _ => 0) + total (map (fun c => dval c a r * r c) L)).
      { apply IHa; [|exact (can_arg fsin fcos a _ Hc (or_introl eq_refl))|exact Hx]. intros w [Hv Hs]. apply Ho. split; [exact Hv|]. eapply sub_arg; [left; reflexivity|exact Hs]. }
      cbn [real_value dval]. rewrite G.
      rewrite (total_ext (fun c => dval c a r / float_value v * r c) (fun c => / float_value v * (dval c a r * r c))) by (intros; unfold Rdiv; ring).
      rewrite total_scal. unfold Rdiv. ring.
    - assert (Oa : forall w, occurs w a -> In (nid w) L) by (intros w [Hv Hs]; apply Ho; split; [exact Hv|]; eapply sub_arg; [left; reflexivity|exact Hs]).
      assert (Ob : forall w, occurs w b -> In (nid w) L) by (intros w [Hv Hs]; apply Ho; split; [exact Hv|]; eapply sub_arg; [right; left; reflexivity|exact Hs]).
      destruct (affine_mul fsin fcos _ _ _ Hc Ha) as [[(j & v & ->) Hx]|[(j & v & ->) Hx]].
      + pose proof (IHb Ob (can_arg fsin fcos b _ Hc (or_intror (or_introl eq_refl))) Hx) as G. cbn [real_value]. rewrite G.
        rewrite (total_ext (fun c => dval c (NMul i (NConst j v) b) r * r c) (fun c => float_value v * (dval c b r * r c))) by (intros; cbn [dval real_value]; ring).
        rewrite total_scal. ring.
      + pose proof (IHa Oa (can_arg fsin fcos a _ Hc (or_introl eq_refl)) Hx) as G. cbn [real_value]. rewrite G.
        rewrite (total_ext (fun c => dval c (NMul i a (NConst j v)) r * r c) (fun c => float_value v * (dval c a r * r c))) by (intros; cbn [dval real_value]; ring).
        rewrite total_scal. ring.
  Qed.

  Lemma nodup_map {A B} (g : A -> B) (h : A -> nat) l : (forall a b, In a l -> In b l -> g a = g b -> h a = h b) -> NoDup (map h l) -> NoDup (map g l).
  Proof.
    induction l as [|a l IH]; cbn [map]; intros Hi Hn; [constructor|]. apply NoDup_cons_iff in Hn as [Ha Hn]. constructor.
    - intros Hin. apply Ha. apply in_map_iff in Hin as (b & Eb & Hb). rewrite (Hi a b (or_introl eq_refl) (or_intror Hb) (eq_sym Eb)). apply in_map. exact Hb.
    - apply IH; [|exact Hn]. intros x y Hx Hy. apply Hi; right; assumption.
  Qed.
  Lemma total_filter {A} (p : A -> bool) (f : A -> R) l : total (map (fun a => if p a then f a else 0) l) = total (map f (filter p l)).
  Proof. induction l as [|a l IH]; cbn [map filter]; [reflexivity|]. rewrite total_cons, IH. destruct (p a); cbn [map]; [rewrite total_cons; reflexivity|ring]. Qed.
  Lemma opp_value (x : F) : float_value (SFopp x) = - float_value x.
  Proof. destruct x as [b|b| |b mm e]; cbn [SFopp float_value]; try ring. destruct b; cbn [negb]; ring. Qed.
  Lemma opp_finite (x : F) : finiteb (SFopp x) = finiteb x.
  Proof. destruct x; reflexivity. Qed.

  Section Model.
    Context (HO : HashOrd).
    Variables (st : mstate F) (m : model F) (sp : std_prob F) (k' : nat).
    Hypothesis Hh : @hist F NF any_op st.
    Hypothesis Hm : In m (st_models st).
    Hypothesis E : @std_problem F NF HO m (st_k st) = Ok (sp, k').
    Hypothesis Hnd : NoDup (map cid (md_constraints m)).
    Variables (obj : std_comp F) (cs : cstd F) (slots : list (slot F)).
    Hypothesis Em : @model_std F NF HO m (st_k st) = Ok ((obj, cs), k').
    Hypothesis Hp : @arranged F NF (st_k st) m cs sp slots.
    Hypothesis Hcode : Forall2 (@slot_code F NF 0 0 (st_k st) cs) (md_constraints m) slots.
    Notation A := (m_a (base_of (sp_prob sp))).
    Notation V := (sp_var2index sp).
    Notation diff_of c d := (gives (@sub_nn F NF (clhs c) (crhs c)) d).
    Notation CS := (combine (md_constraints m) slots).
    Let ord0 : @number_order F NF := C67_binary64 fsin fcos.
    Notation coeff d v := (float_value (coefficient NF d v)).

    Lemma cells_nodup : NoDup (map (fun vj => nid (fst vj)) V).
    Proof.
      destruct (@C24_bijection F NF HO st m sp k' Hh Hm E eq_refl) as (B & C & _). apply (nodup_map _ snd).
      - intros [v i] [w j] Hv Hw Ee. cbn [fst snd] in *. exact (proj2 (C v w i j Hv Hw Ee)).
      - rewrite B. apply seq_NoDup.
    Qed.
    Lemma pairs_nodup : NoDup V.
    Proof. apply (NoDup_map_inv (fun vj => nid (fst vj))). exact cells_nodup. Qed.
    Lemma column_sum (f : nat -> R) : total (map f (seq 0 (m_nx (base_of (sp_prob sp))))) = total (map (fun vj => f (snd vj)) V).
    Proof. destruct (@C24_bijection F NF HO st m sp k' Hh Hm E eq_refl) as (B & _). rewrite <- B, map_map. reflexivity. Qed.
    Lemma var_indexed v : model_var m v -> exists j, In (v, j) V.
    Proof.
      intros Hv. destruct (@C24_bijection F NF HO st m sp k' Hh Hm E eq_refl) as (_ & _ & HA & _). specialize (HA v Hv).
      apply in_map_iff in HA as ([w j] & Ew & Hj). cbn [fst] in Ew. subst w. exists j. exact Hj.
    Qed.

    (** The affine form of left minus right side against the real function. *)
    Lemma affine_close r c d sl : In c (md_constraints m) -> diff_of c d -> @well_built F NF d -> finite_constants d -> p_affine (@std_properties F NF d) = true ->
      finiteb (p_b (@std_properties F NF d)) = true -> (forall v j, In (v, j) V -> finiteb (coefficient NF d v) = true) ->
      Rabs (real_value d r - (float_value (p_b (@std_properties F NF d)) + total (map (fun vj => coeff d (fst vj) * r (nid (fst vj))) V))) <= row_error NF (st_k st) r sl d.
    Proof.
      intros Hc Gd Bd Fd Ha Fb Fc. unfold row_error. rewrite Ha.
      set (L := map (fun vj : node F * nat => nid (fst vj)) V).
      assert (HL : forall w, occurs w d -> In (nid w) L).
      { intros w Hw. destruct (var_indexed w (diff_vars fsin fcos m c d Hc Gd w Hw)) as [j Hj]. unfold L. apply in_map_iff. exists (w, j). split; [reflexivity|exact Hj]. }
      rewrite (affine_real L r d cells_nodup HL (proj1 Bd) Ha). unfold L. rewrite map_map.
      set (D := fun vj : node F * nat => dval (nid (fst vj)) d r * r (nid (fst vj))).
      set (C := fun vj : node F * nat => coeff d (fst vj) * r (nid (fst vj))).
      change (fun x : node F * nat => dval (nid (fst x)) d r * r (nid (fst x))) with D.
      replace (real_value d (fun _ => 0) + total (map D V) - (float_value (p_b (@std_properties F NF d)) + total (map C V)))
        with (- (float_value (p_b (@std_properties F NF d)) - real_value d (fun _ => 0)) + (total (map D V) - total (map C V))) by ring.
      eapply Rle_trans; [apply Rabs_triang|]. rewrite Rabs_Ropp. apply Rplus_le_compat; [exact (constant_near fsin fcos d Bd Fd Ha Fb)|].
      rewrite <- total_minus. eapply Rle_trans; [apply total_abs|].
      set (h := fun c0 : nat => first_error NF c0 r d * Rabs (r c0)).
      assert (Hfe : forall v j, In (v, j) V -> Rabs (coeff d v - dval (nid v) d r) <= first_error NF (nid v) r d).
      { intros v j Hv. unfold first_error, first_est. rewrite Ha.
        exact (proj2 (coef_near fsin fcos v r d (v2i_var fsin fcos HO st m sp k' Hh Hm E v j Hv) (proj1 Bd) Fd Ha) (Fc v j Hv)). }
      apply Rle_trans with (total (map (fun vj => if Nat.ltb (nid (fst vj)) (st_k st) then h (nid (fst vj)) else 0) V)).
      - apply total_le. intros [v j] Hv. unfold D, C, h. cbn [fst].
        replace (dval (nid v) d r * r (nid v) - coeff d v * r (nid v)) with (- (coeff d v - dval (nid v) d r) * r (nid v)) by ring.
        rewrite Rabs_mult, Rabs_Ropp. destruct (Nat.ltb (nid v) (st_k st)) eqn:Eo.
        + apply Rmult_le_compat_r; [apply Rabs_pos|exact (Hfe v j Hv)].
        + apply Nat.ltb_ge in Eo. assert (Hold := diff_old fsin fcos st m Hh Hm c d Hc Gd).
          assert (Ez : coeff d v = 0).
          { unfold coefficient. change (match hget ptr_eq v (p_a (@std_properties F NF d)) with Some y => y | None => flit 0 end) with
              (match hget ptr_eq v (p_a (@std_properties F NF d)) with Some y => y | None => flit 0 end).
            rewrite (no_coefficient fsin fcos st d v Hold Eo). apply zero_value. }
          rewrite Ez, dval_absent; [rewrite Rminus_0_r, Rabs_R0; lra|]. intros w Hw. specialize (Hold w Hw). lia.
      - rewrite (total_filter (fun vj => Nat.ltb (nid (fst vj)) (st_k st)) (fun vj => h (nid (fst vj)))).
        rewrite <- (map_map (fun vj : node F * nat => nid (fst vj)) h). 
        assert (Hfil : forall (l : list (node F * nat)) (p : node F * nat -> bool), NoDup (map (fun vj => nid (fst vj)) l) -> NoDup (map (fun vj => nid (fst vj)) (filter p l))).
        { clear. intros l p. induction l as [|a l IH]; cbn [map filter]; intros Hn; [constructor|]. apply NoDup_cons_iff in Hn as [Ha Hn].
          destruct (p a); cbn [map]; [|exact (IH Hn)]. constructor; [|exact (IH Hn)]. intros Hin. apply Ha.
          apply in_map_iff in Hin as (b & Eb & Hb). apply in_map_iff. exists b. split; [exact Eb|]. apply filter_In in Hb. apply Hb. }
        apply total_cells; [apply Hfil; exact cells_nodup| |].
        + intros x Hx. apply in_map_iff in Hx as ([v j] & Ex & Hx). apply filter_In in Hx as [_ Hx]. cbn [fst] in *. subst x. apply Nat.ltb_lt. exact Hx.
        + intros x _. unfold h. apply Rmult_le_pos; [|apply Rabs_pos]. unfold first_error, first_est. rewrite Ha.
          pose proof (coef_sv fsin fcos (NVar x EmptyString VarContinuous) r d eq_refl (proj1 Bd) Fd Ha) as [_ Hmag _]. cbn [nid] in Hmag.
          apply Rmult_le_pos; [exact (gam_pos _)|]. eapply Rle_trans; [apply Rabs_pos|exact Hmag].
    Qed.

    (** The variables a constraint owns or bounds have columns. *)
    Lemma slack_indexed c sl v : In (c, sl) CS -> slack_of sl = [v] -> exists j, In (v, j) V.
    Proof.
      intros Hin Hs. destruct (@Properties_Place.slack_new F NF st m sp cs slots Hp c sl v Hin Hs) as [_ Hb]. unfold bounds_with in Hb.
      apply (@Properties_Place.bnd_var F NF HO st m sp k' Hh Hm E obj cs Em v (@n0 F NF) c). destruct (ckd c); [destruct Hb|left; exact Hb|right; exact Hb].
    Qed.

    (** *** The recorded point *)
    Section Point.
      Variables (x : list F) (vs : vals F) (r : nat -> R).
      Hypotheses (Has : assigns sp x vs) (Hr : reads vs r) (Hx : length x = m_nx (base_of (sp_prob sp))) (Hfx : Forall (fun y => finiteb y = true) x).
      Lemma entry_reads v j : In (v, j) V -> entry x j = r (nid v).
      Proof.
        intros Hv. destruct (Has v j Hv) as (y & Ey & Hg). unfold entry. rewrite (nth_error_nth _ _ (flit 0) Ey).
        destruct (Hr v y (v2i_var fsin fcos HO st m sp k' Hh Hm E v j Hv) Hg) as [_ G]. symmetry. apply G.
        rewrite Forall_forall in Hfx. apply Hfx. eapply nth_error_In. exact Ey.
      Qed.
      Definition slack_num (sl : option (node F)) : R := match sl with Some v => r (nid v) | None => 0 end.
      Definition is_slack (sl : option (node F)) (v : node F) : R := match sl with Some w => if Nat.eqb (nid v) (nid w) then 1 else 0 | None => 0 end.
      Lemma slack_sum c i sl : In (c, SRow i sl) CS -> total (map (fun vj => is_slack sl (fst vj) * r (nid (fst vj))) V) = slack_num sl.
      Proof.
        intros Hin. destruct sl as [w|]; cbn [is_slack slack_num]; [|apply total_zero; intros; ring].
        destruct (slack_indexed c (SRow i (Some w)) w Hin eq_refl) as [j Hj]. rewrite (total_one _ V (w, j) pairs_nodup Hj); cbn [fst].
        - rewrite Nat.eqb_refl. ring.
        - intros [v i'] Hv Hne. cbn [fst]. destruct (Nat.eqb (nid v) (nid w)) eqn:Ee; [|ring]. apply Nat.eqb_eq in Ee.
          exfalso. apply Hne. destruct (ix_nid fsin fcos HO st m sp k' Hh Hm E v w i' j Hv Hj Ee) as [-> ->]. reflexivity.
      Qed.
      (** A linear row. *)
      Lemma linear_close c i sl : In (c, SRow i sl) CS ->
        finiteb (nth i (m_b (base_of (sp_prob sp))) (flit 0)) = true -> (forall j, stored_finite A i j) ->
        exists d, diff_of c d /\ (finite_constants d ->
          Rabs (real_value d r - slack_num sl - linear_miss A (m_b (base_of (sp_prob sp))) (m_nx (base_of (sp_prob sp))) x i) <= row_error NF (st_k st) r sl d).
      Proof.
        intros Hin Fb Fa. pose proof (row_in fsin fcos st m sp cs slots Hp c i sl Hin) as Hi.
        destruct (@C74_rows F NF HO st m sp k' Hh Hm E) as [_ HR]. destruct (HR i c Hi) as (Hc & sl0 & Hsl0 & (d0 & Hd0) & Hd).
        destruct (gives_built fsin fcos st m c d0 Hh Hm Hc Hd0) as (d & Gd & Bd). exists d. split; [exact Gd|]. intros Fd.
        destruct (Hd d Gd) as (Ha & Eb & Hco).
        assert (Ev : forall v j, In (v, j) V -> stored A i j = coeff d v - is_slack sl v /\ finiteb (coefficient NF d v) = true).
        { intros v j Hv. destruct (Nat.ltb (nid v) (st_k st)) eqn:Eo.
          - apply Nat.ltb_lt in Eo.
            assert (Hns : sl0 <> Some v) by (intros ->; destruct Hsl0 as (_ & _ & Hk); lia).
            destruct (stored_one A i j _ (proj2 (Hco v j Hv) Hns)) as [Q1 Q2]. rewrite Q1. split; [|exact (Q2 (Fa j))].
            assert (Ez : is_slack sl v = 0).
            { destruct sl as [w|]; [|reflexivity]. cbn [is_slack]. pose proof (slack_new' fsin fcos st m sp cs slots Hp c _ w Hin eq_refl) as Hw.
              destruct (Nat.eqb (nid v) (nid w)) eqn:Ee; [apply Nat.eqb_eq in Ee; lia|reflexivity]. }
            rewrite Ez, Rminus_0_r. reflexivity.
          - apply Nat.ltb_ge in Eo. assert (Hold := diff_old fsin fcos st m Hh Hm c d Hc Gd).
            assert (Ez : coefficient NF d v = flit 0).
            { unfold coefficient. pose proof (no_coefficient fsin fcos st d v Hold Eo) as G. change (hget ptr_eq v (p_a (@std_properties F NF d)) = None) in G. rewrite G. reflexivity. }
            rewrite Ez, zero_value. split; [|reflexivity].
            destruct (row_new fsin fcos HO st m sp k' Hh Hm E cs slots Hp c i sl Hin v j Hv Eo) as [P1 P2].
            destruct (classic (sl = Some v)) as [G|G].
            + rewrite (stored_m1 fsin fcos A i j (P1 G)), G. cbn [is_slack]. rewrite Nat.eqb_refl. lra.
            + rewrite (stored_nil A i j (P2 G)). destruct sl as [w|]; cbn [is_slack]; [|lra].
              destruct (Nat.eqb (nid v) (nid w)) eqn:Ee; [|lra]. apply Nat.eqb_eq in Ee. exfalso. apply G. f_equal.
              destruct (slack_indexed c (SRow i (Some w)) w Hin eq_refl) as [jw Hw].
              destruct (ix_nid fsin fcos HO st m sp k' Hh Hm E v w j jw Hv Hw Ee) as [-> _]. reflexivity. }
        assert (Eb' : nth i (m_b (base_of (sp_prob sp))) (flit 0) = SFopp (p_b (@std_properties F NF d))) by exact (nth_error_nth _ _ (flit 0) Eb).
        assert (Em1 : linear_miss A (m_b (base_of (sp_prob sp))) (m_nx (base_of (sp_prob sp))) x i
                      = float_value (p_b (@std_properties F NF d)) + total (map (fun vj => coeff d (fst vj) * r (nid (fst vj))) V) - slack_num sl).
        { unfold linear_miss. rewrite (column_sum (fun j => stored A i j * entry x j)). unfold entry at 2. rewrite Eb', opp_value.
          rewrite (total_ext _ (fun vj => coeff d (fst vj) * r (nid (fst vj)) - is_slack sl (fst vj) * r (nid (fst vj))) V).
          - rewrite total_minus, (slack_sum c i sl Hin). ring.
          - intros [v j] Hv. cbn [fst snd]. rewrite (proj1 (Ev v j Hv)), (entry_reads v j Hv). ring. }
        rewrite Em1.
        match goal with |- Rabs (?a - ?s0 - (?b + ?t - ?s0)) <= _ => replace (a - s0 - (b + t - s0)) with (a - (b + t)) by ring end.
        apply (affine_close r c d sl Hc Gd Bd Fd Ha); [rewrite Eb', opp_finite in Fb; exact Fb|]. intros v j Hv. exact (proj2 (Ev v j Hv)).
      Qed.
      (** A bound. *)
      Lemma bound_close c w b : In (c, SBound w b) CS -> finiteb b = true ->
        exists d, diff_of c d /\ (finite_constants d -> Rabs (real_value d r - (r (nid w) - float_value b)) <= row_error NF (st_k st) r None d).
      Proof.
        intros Hin Fb. pose proof (in_combine_l _ _ _ _ Hin) as Hc.
        destruct (in_combine_F2 _ _ _ _ _ Hcode Hin) as (e & ((k0 & k1 & Ee) & _) & Haff & _ & _ & (a & Ea & Ha1 & Eb)).
        assert (Ge : diff_of c e) by (exists k0, k1; exact Ee).
        destruct (gives_built fsin fcos st m c e Hh Hm Hc Ge) as (d & Gd & Bd). exists d. split; [exact Gd|]. intros Fd.
        assert (Ep : @std_properties F NF d = @std_properties F NF e).
        { apply std_properties_sim. exact (gives_sim _ _ _ d e (sub_nn_sim e0 _ _ _ _ eq_refl eq_refl) Gd Ge). }
        assert (Had : p_affine (@std_properties F NF d) = true) by (rewrite Ep; exact Haff).
        destruct (bnd_index fsin fcos HO st m sp k' Hh Hm E obj cs slots Em Hp c w b Hin) as [jw Hw].
        assert (Fa : finiteb a = true /\ float_value a = 1) by (rewrite (eqb_one fsin fcos a Ha1); split; [vm_compute; reflexivity|rewrite float_value_fval; exact (proj2 (flit_int 1 ltac:(vm_compute; discriminate)))]).
        assert (Ev : forall v j, In (v, j) V -> coefficient NF d v = if Nat.eqb (nid v) (nid w) then a else flit 0).
        { intros v j Hv. unfold coefficient. rewrite Ep, Ea. cbn [hget].
          destruct (ptr_eq v w) eqn:Epv.
          - rewrite (proj2 (Nat.eqb_eq _ _) (ptr_eq_nid _ _ Epv)). reflexivity.
          - destruct (Nat.eqb (nid v) (nid w)) eqn:En; [|reflexivity]. apply Nat.eqb_eq in En.
            destruct (ix_nid fsin fcos HO st m sp k' Hh Hm E v w j jw Hv Hw En) as [-> _]. rewrite ptr_eq_refl in Epv. discriminate Epv. }
        assert (Epb : b = SFopp (p_b (@std_properties F NF d))) by (rewrite Ep; exact Eb).
        assert (Es : total (map (fun vj => coeff d (fst vj) * r (nid (fst vj))) V) = r (nid w)).
        { rewrite (total_one _ V (w, jw) pairs_nodup Hw); cbn [fst].
          - rewrite (Ev w jw Hw), Nat.eqb_refl, (proj2 Fa). ring.
          - intros [v i'] Hv Hne. cbn [fst]. rewrite (Ev v i' Hv). destruct (Nat.eqb (nid v) (nid w)) eqn:En; [|rewrite zero_value; ring].
            apply Nat.eqb_eq in En. exfalso. apply Hne. destruct (ix_nid fsin fcos HO st m sp k' Hh Hm E v w i' jw Hv Hw En) as [-> ->]. reflexivity. }
        pose proof (affine_close r c d None Hc Gd Bd Fd Had) as G. rewrite Es in G.
        replace (r (nid w) - float_value b) with (float_value (p_b (@std_properties F NF d)) + r (nid w)) by (rewrite Epb, opp_value; ring).
        apply G.
        - rewrite Epb, opp_finite in Fb. exact Fb.
        - intros v j Hv. rewrite (Ev v j Hv). destruct (Nat.eqb (nid v) (nid w)); [exact (proj1 Fa)|reflexivity].
      Qed.
      (** A nonlinear row. *)
      Lemma nonlinear_close q : minlp_evaluate (base_of (sp_prob sp)) x = Ok q -> forall c i sl, In (c, SFun i sl) CS ->
        exists d y, diff_of c d /\ nth_error (b_f (m_bufs q)) i = Some y /\
          (finite_constants d -> (p_affine (@std_properties F NF d) = false -> safe_quotients NF false vs r d) -> finiteb y = true ->
             Rabs (real_value d r - slack_num sl - float_value y) <= row_error NF (st_k st) r sl d).
      Proof.
        intros Eq c i sl Hin.
        assert (Hcl : class_of (sp_prob sp) = ClNlp \/ class_of (sp_prob sp) = ClMinlp).
        { pose proof (fun_in fsin fcos st m sp cs slots Hp c i sl Hin) as Hj. destruct (class_of (sp_prob sp)) eqn:Ecl; auto; exfalso;
            (rewrite (Properties_Aff.no_rows fsin fcos HO st m sp k' Hh Hm E) in Hj; [destruct Hj|rewrite Ecl; tauto]). }
        destruct (@nonlinear_slacks F NF HO st m sp k' eq_refl Hh Hm E (base_of (sp_prob sp)) x Hcl (@ev_start F NF _) Hx) as (q1 & Eq1 & _ & _ & _ & Hrows).
        assert (q1 = q) as -> by congruence.
        destruct (Hrows i c (fun_in fsin fcos st m sp cs slots Hp c i sl Hin)) as (Hc & sl0 & Hown & [(y & Ey & Hy) (d & h & Gd & (f & Hf) & Bd & Ha & _)] & Hb).
        assert (Esl : sl0 = sl).
        { destruct sl0 as [s0|].
          - symmetry. exact (own_upper fsin fcos st m sp Hnd cs slots Hp c i sl s0 Hin (Hb s0 obj cs eq_refl Em)).
          - destruct sl as [v|]; [|reflexivity]. destruct (Properties_Place.cs_ok st m sp cs slots Hp c _ Hin) as (_ & _ & (_ & _ & Hbw) & _).
            unfold bounds_with in Hbw. cbn [own_slack] in Hown. rewrite Hown in Hbw. destruct Hbw. }
        subst sl0. exists d, y. split; [exact Gd|]. split; [exact Ey|]. intros Fd Sd Fy.
        pose proof (safe_fine fsin fcos false vs r d Hsin Hcos Fd (Sd Ha)) as Ga.
        pose proof (built_value fsin fcos vs r d false Hr Bd Ga) as Vd.
        rewrite <- (Hy d f Gd Hf vs Has) in Fy |- *. unfold row_error. rewrite Ha. rewrite Rabs_minus_sym.
        destruct sl as [s|]; cbn [minus_slack slack_num row_est] in *.
        - destruct Hf as (k3 & k4 & Ef). destruct Hown as (_ & Hs & _). apply in_map_iff in Hs as ([s' js] & Es' & Hs). cbn [fst] in Es'. subst s'.
          pose proof (v2i_var fsin fcos HO st m sp k' Hh Hm E s js Hs) as Hv. destruct s as [| i0 nm kd| | | | | ]; try discriminate Hv.
          pose proof (reads_var fsin fcos vs r i0 nm kd Hr) as Gs. cbn [nid].
          exact (good_near fsin fcos vs f _ (e_sub (est_of d) (est_of (NVar i0 nm kd))) r (sub_nn_good fsin fcos vs d _ _ _ _ _ _ _ f k3 k4 Vd Gs Ef) Fy).
        - subst f. rewrite Rminus_0_r. exact (good_near fsin fcos vs d _ (est_of d) r Vd Fy).
      Qed.
    End Point.

    (** *** Multipliers *)
    Section Duals.
      Variables (stat : status) (s : sol F) (m' : model F) (eta delta : R).
      Hypothesis Hrec : @recorded F NF HO k' sp stat s m m'.
      Hypothesis Hnc : near_complementary eta delta sp s.
      Notation dual_ok c sl Hin := (dual_ok' fsin fcos HO st m sp k' Hh Hm E Hnd obj cs slots Em Hp stat s m' Hrec c sl Hin).
      Lemma upper_zero c sl v j : In (c, sl) CS -> ckd c = LessEqual -> slack_of sl = [v] -> In (v, j) V ->
        nth_error (m_u (base_of (sp_prob sp))) j = Some (@n0 F NF).
      Proof.
        intros Hin Ek Hs Hj.
        destruct (@Properties_Place.slack_new F NF st m sp cs slots Hp c sl v Hin Hs) as [_ Hb]. unfold bounds_with in Hb. rewrite Ek in Hb.
        destruct (@Properties_Place.tightest_any F NF HO st m sp k' obj cs slots ord0 Hh Hm E Em Hp v j Hj) as ((u & Eu & _ & _ & Hc) & _).
        destruct (hget Nat.eqb j (sp_ucons sp)) as [c'|] eqn:Hg.
        - destruct Hc as (l1 & l2 & EL & _). rewrite Eu. f_equal.
          assert (Hu : In (v, u, c') (@uppers F NF m slots)) by (rewrite EL; apply in_or_app; right; left; reflexivity).
          apply in_flat_map in Hu as ([c0 sl'] & Hin' & Hu). unfold upper_of in Hu. cbn [fst snd] in Hu.
          destruct (ckd c0) eqn:Ek', sl' as [v' b|i [w|]|i [w|]]; cbn [In] in Hu; try tauto; destruct Hu as [Hu|[]]; injection Hu as Ev Eb Ec; subst v; [|symmetry; exact Eb|symmetry; exact Eb].
          exfalso. pose proof (@Properties_Place.bound_old F NF st m sp Hh Hm cs slots Hp c0 v' b Hin'). pose proof (slack_new' fsin fcos st m sp cs slots Hp c sl v' Hin Hs). lia.
        - exfalso. destruct Hc as [_ Hc]. rewrite <- (ar_uppers _ _ _ _ _ Hp) in Hc. specialize (Hc _ _ Hb). pose proof (proj2 (no_box ord0)) as G.
          change (@nleb F NF (@n0 F NF) (@INF F NF) = true) in G. rewrite Hc in G. discriminate G.
      Qed.
      Lemma lower_zero c sl v j : In (c, sl) CS -> ckd c = GreaterEqual -> slack_of sl = [v] -> In (v, j) V ->
        nth_error (m_l (base_of (sp_prob sp))) j = Some (@n0 F NF).
      Proof.
        intros Hin Ek Hs Hj.
        destruct (@Properties_Place.slack_new F NF st m sp cs slots Hp c sl v Hin Hs) as [_ Hb]. unfold bounds_with in Hb. rewrite Ek in Hb.
        destruct (@Properties_Place.tightest_any F NF HO st m sp k' obj cs slots ord0 Hh Hm E Em Hp v j Hj) as (_ & (u & Eu & _ & _ & Hc)).
        destruct (hget Nat.eqb j (sp_lcons sp)) as [c'|] eqn:Hg.
        - destruct Hc as (l1 & l2 & EL & _). rewrite Eu. f_equal.
          assert (Hu : In (v, u, c') (@lowers F NF m slots)) by (rewrite EL; apply in_or_app; right; left; reflexivity).
          apply in_flat_map in Hu as ([c0 sl'] & Hin' & Hu). unfold lower_of in Hu. cbn [fst snd] in Hu.
          destruct (ckd c0) eqn:Ek', sl' as [v' b|i [w|]|i [w|]]; cbn [In] in Hu; try tauto; destruct Hu as [Hu|[]]; injection Hu as Ev Eb Ec; subst v; [|symmetry; exact Eb|symmetry; exact Eb].
          exfalso. pose proof (@Properties_Place.bound_old F NF st m sp Hh Hm cs slots Hp c0 v' b Hin'). pose proof (slack_new' fsin fcos st m sp cs slots Hp c sl v' Hin Hs). lia.
        - exfalso. destruct Hc as [_ Hc]. rewrite <- (ar_lowers _ _ _ _ _ Hp) in Hc. specialize (Hc _ _ Hb). pose proof (proj1 (no_box ord0)) as G.
          rewrite Hc in G. discriminate G.
      Qed.
      Hypothesis Has : assigns sp (s_x s) (md_primals m').
      Variable r : nat -> R.
      Hypothesis Hr : reads (md_primals m') r.
      (** The recorded multiplier of an inequality with a slack: its sign, and its product with the slack. *)
      Lemma slack_multiplier c sl v : In (c, sl) CS -> slack_of sl = [v] -> ckd c <> Equal ->
        - eta <= recorded_dual m' c /\ Rabs (recorded_dual m' c * r (nid v)) <= eta.
      Proof.
        intros Hin Hs Hk. pose proof (dual_ok c sl Hin) as Hd. unfold dual_of in Hd.
        assert (Hz : float_value (@n0 F NF) = 0) by exact zero_value.
        destruct (ckd c) eqn:Ek; [contradiction| |].
        - assert (G : exists j, In (v, j) V /\ recorded_dual m' c = multiplier (s_mu s) j).
          { destruct sl as [w b|i [w|]|i [w|]]; cbn [slack_of] in Hs; try discriminate Hs; injection Hs as ->;
              destruct Hd as (j & Hj & Hd1 & Hd2); exists j; split; [exact Hj|exact (recorded_at m' c _ _ Hd1 Hd2)|exact Hj|exact (recorded_at m' c _ _ Hd1 Hd2)]. }
          destruct G as (j & Hj & ->). destruct (nc_upper _ _ _ _ Hnc j _ (upper_zero c sl v j Hin Ek Hs Hj)) as (_ & G1 & G2). split; [exact G1|].
          rewrite Hz, (entry_reads (s_x s) (md_primals m') r Has Hr (nc_finite _ _ _ _ Hnc) v j Hj) in G2.
          replace (multiplier (s_mu s) j * r (nid v)) with (- (multiplier (s_mu s) j * (0 - r (nid v)))) by ring. rewrite Rabs_Ropp. exact G2.
        - assert (G : exists j, In (v, j) V /\ recorded_dual m' c = multiplier (s_pi s) j).
          { destruct sl as [w b|i [w|]|i [w|]]; cbn [slack_of] in Hs; try discriminate Hs; injection Hs as ->;
              destruct Hd as (j & Hj & Hd1 & Hd2); exists j; split; [exact Hj|exact (recorded_at m' c _ _ Hd1 Hd2)|exact Hj|exact (recorded_at m' c _ _ Hd1 Hd2)]. }
          destruct G as (j & Hj & ->). destruct (nc_lower _ _ _ _ Hnc j _ (lower_zero c sl v j Hin Ek Hs Hj)) as (_ & G1 & G2). split; [exact G1|].
          rewrite Hz, (entry_reads (s_x s) (md_primals m') r Has Hr (nc_finite _ _ _ _ Hnc) v j Hj), Rminus_0_r in G2. exact G2.
      Qed.
      (** The recorded multiplier of a bound. *)
      Lemma bound_multiplier c w b : In (c, SBound w b) CS ->
        - eta <= recorded_dual m' c /\ (recorded_dual m' c = 0 \/ finiteb b = true /\ Rabs (recorded_dual m' c * (r (nid w) - float_value b)) <= eta).
      Proof.
        intros Hin. pose proof (dual_ok c _ Hin) as Hd. unfold dual_of in Hd.
        destruct (Properties_Place.cs_ok st m sp cs slots Hp c _ Hin) as (_ & Hb & _). unfold bounds_with in Hb.
        destruct (ckd c) eqn:Ek; [destruct Hb| |]; destruct Hd as (j & Hj & H1 & H2).
        - destruct (@Properties_Place.tightest_any F NF HO st m sp k' obj cs slots ord0 Hh Hm E Em Hp w j Hj) as ((u & Eu & _ & _ & Hc) & _).
          destruct (nc_upper _ _ _ _ Hnc j u Eu) as (G0 & G1 & G2). destruct (classic (hget Nat.eqb j (sp_ucons sp) = Some c)) as [Hg|Hg].
          + destruct (H1 Hg) as [Q1 Q2]. rewrite (recorded_at m' c _ _ Q1 Q2). split; [exact G1|]. right.
            rewrite Hg in Hc. destruct Hc as (l1 & l2 & EL & _).
            assert (Hu : In (w, u, c) (@uppers F NF m slots)) by (rewrite EL; apply in_or_app; right; left; reflexivity).
            apply in_flat_map in Hu as ([c0 sl'] & Hin' & Hu). unfold upper_of in Hu. cbn [fst snd] in Hu.
            assert (Eub : u = b).
            { destruct (ckd c0) eqn:Ek', sl' as [v' b'|i [v'|]|i [v'|]]; cbn [In] in Hu; try tauto; destruct Hu as [Hu|[]]; injection Hu as Ev Eb Ec; subst c0 v';
                destruct (Properties_Place.cs_inj m Hnd slots _ _ _ _ Hin Hin' (constr_eqb_refl c)) as [_ Es]; try discriminate Es; injection Es as Es; congruence. }
            subst u. split; [exact G0|].
            rewrite (entry_reads (s_x s) (md_primals m') r Has Hr (nc_finite _ _ _ _ Hnc) w j Hj) in G2.
            replace (multiplier (s_mu s) j * (r (nid w) - float_value b)) with (- (multiplier (s_mu s) j * (float_value b - r (nid w)))) by ring. rewrite Rabs_Ropp. exact G2.
          + rewrite (not_recorded m' c (H2 Hg)). split; [|left; reflexivity]. assert (0 <= eta) by (eapply Rle_trans; [apply Rabs_pos|exact G2]). lra.
        - destruct (@Properties_Place.tightest_any F NF HO st m sp k' obj cs slots ord0 Hh Hm E Em Hp w j Hj) as (_ & (u & Eu & _ & _ & Hc)).
          destruct (nc_lower _ _ _ _ Hnc j u Eu) as (G0 & G1 & G2). destruct (classic (hget Nat.eqb j (sp_lcons sp) = Some c)) as [Hg|Hg].
          + destruct (H1 Hg) as [Q1 Q2]. rewrite (recorded_at m' c _ _ Q1 Q2). split; [exact G1|]. right.
            rewrite Hg in Hc. destruct Hc as (l1 & l2 & EL & _).
            assert (Hu : In (w, u, c) (@lowers F NF m slots)) by (rewrite EL; apply in_or_app; right; left; reflexivity).
            apply in_flat_map in Hu as ([c0 sl'] & Hin' & Hu). unfold lower_of in Hu. cbn [fst snd] in Hu.
            assert (Eub : u = b).
            { destruct (ckd c0) eqn:Ek', sl' as [v' b'|i [v'|]|i [v'|]]; cbn [In] in Hu; try tauto; destruct Hu as [Hu|[]]; injection Hu as Ev Eb Ec; subst c0 v';
                destruct (Properties_Place.cs_inj m Hnd slots _ _ _ _ Hin Hin' (constr_eqb_refl c)) as [_ Es]; try discriminate Es; injection Es as Es; congruence. }
            subst u. split; [exact G0|].
            rewrite (entry_reads (s_x s) (md_primals m') r Has Hr (nc_finite _ _ _ _ Hnc) w j Hj) in G2. exact G2.
          + rewrite (not_recorded m' c (H2 Hg)). split; [|left; reflexivity]. assert (0 <= eta) by (eapply Rle_trans; [apply Rabs_pos|exact G2]). lra.
      Qed.
    End Duals.
  End Model.

  (** ** C84 After a solve whose solver answers with a point and multipliers that satisfy, up to
      [eta] and [delta], the signs, the complementarity and the rows of the numbers it was given, the
      multiplier recorded for each inequality is at least [-eta], and its product with left minus right
      side at the recorded point is small: up to the tolerances and the rounding error of the expression. *)
  Theorem C84_complementary (HO : HashOrd) (st : mstate F) solver m m' k' :
    @hist F NF any_op st -> In m (st_models st) -> @solve F NF HO solver m (st_k st) = (m', Returned (inl tt), k') -> NoDup (map cid (md_constraints m)) ->
    exists sp stat s, @std_problem F NF HO m (st_k st) = Ok (sp, k') /\ solver (sp_prob sp) = Ok (inl (stat, s)) /\
    forall eta delta r, near_complementary eta delta sp s -> 0 <= delta -> reads (md_primals m') r ->
      forall c, In c (md_constraints m) -> ckd c <> Equal ->
        - eta <= recorded_dual m' c /\
        exists d slack, gives (@sub_nn F NF (clhs c) (crhs c)) d /\
          (forall v, slack = Some v -> In v (map fst (sp_var2index sp)) /\ (st_k st <= nid v)%nat) /\
          (finite_constants d -> (p_affine (@std_properties F NF d) = false -> safe_quotients NF false (md_primals m') r d) ->
           Rabs (recorded_dual m' c * real_value d r) <= eta + Rabs (recorded_dual m' c) * (delta + row_error NF (st_k st) r slack d)).
  Proof.
    intros Hh Hm Es Hnd. destruct (@solve_ok F NF HO _ _ _ _ _ Es) as (sp & stat & s & Esp & Eso & Er).
    pose proof (@record_spec F NF HO _ _ _ _ _ _ Er (@hist_v2i_nodup F NF HO st m sp k' Hh Hm Esp)) as Hrec.
    exists sp, stat, s. split; [exact Esp|]. split; [exact Eso|]. intros eta delta r Hnc Hdel Hr c Hc Hk.
    assert (Has : assigns sp (s_x s) (md_primals m')).
    { destruct (@C33_primals F NF HO st solver m m' k' Hh Hm Es) as (sp0 & stat0 & s0 & Esp0 & Eso0 & _ & _ & _ & Hval).
      assert (Ep : sp0 = sp) by congruence. subst sp0. assert (Ess : s0 = s) by congruence. subst s0.
      intros v i Hv. destruct (Hval v i Hv) as (y & Ey & _ & Hg). exists y. split; assumption. }
    destruct (@arranged_code F NF HO st m sp k' Hh Hm Esp eq_refl) as (obj & cs & slots & Em & Hp & _ & Hcode & _).
    assert (Hx := nc_x _ _ _ _ Hnc). assert (Hfx := nc_finite _ _ _ _ Hnc).
    destruct (evaluated_all fsin fcos Hsin Hcos HO st m sp k' Hh Hm Esp Hnd obj cs slots Em Hp (s_x s) (md_primals m') r Has Hr Hx)
      as (q & e & Eq & _).
    assert (Hsl : exists sl, In (c, sl) (combine (md_constraints m) slots)).
    { assert (Hf : map fst (combine (md_constraints m) slots) = md_constraints m) by (apply map_fst_combine; exact (Properties_Place.cs_len st m sp cs slots Hp)).
      rewrite <- Hf in Hc. apply in_map_iff in Hc as ([c0 sl] & Ec & Hin). cbn [fst] in Ec. subst c0. exists sl. exact Hin. }
    destruct Hsl as [sl Hin].
    assert (Hgo : forall v a z B, Rabs z <= delta -> Rabs (recorded_dual m' c * a) <= eta -> Rabs (v - a - z) <= B ->
              Rabs (recorded_dual m' c * v) <= eta + Rabs (recorded_dual m' c) * (delta + B)).
    { intros v a z B Hz Hs He. set (y := recorded_dual m' c) in *.
      replace (y * v) with (y * a + y * (z + (v - a - z))) by ring.
      eapply Rle_trans; [apply Rabs_triang|]. apply Rplus_le_compat; [exact Hs|]. rewrite Rabs_mult. apply Rmult_le_compat_l; [apply Rabs_pos|].
      eapply Rle_trans; [apply Rabs_triang|]. apply Rplus_le_compat; assumption. }
    assert (Hown : forall v, slack_of sl = [v] -> In v (map fst (sp_var2index sp)) /\ (st_k st <= nid v)%nat).
    { intros v Hv. split; [|exact (slack_new' fsin fcos st m sp cs slots Hp c sl v Hin Hv)].
      destruct (slack_indexed HO st m sp k' Hh Hm Esp obj cs slots Em Hp c sl v Hin Hv) as [j Hj]. apply in_map_iff. exists (v, j). split; [reflexivity|exact Hj]. }
    assert (Hmul := slack_multiplier HO st m sp k' Hh Hm Esp Hnd obj cs slots Em Hp stat s m' eta delta Hrec Hnc Has r Hr c sl).
    assert (Hno : slack_of sl = [] -> (exists w b, sl = SBound w b) \/ False).
    { intros Hs0. destruct sl as [w b|i [v|]|i [v|]]; cbn [slack_of] in Hs0; try discriminate Hs0; [left; exists w, b; reflexivity| |];
        exfalso; pose proof (dual_ok' fsin fcos HO st m sp k' Hh Hm Esp Hnd obj cs slots Em Hp stat s m' Hrec c _ Hin) as Hd; unfold dual_of in Hd;
        destruct (ckd c); [contradiction|exact Hd|exact Hd|contradiction|exact Hd|exact Hd]. }
    destruct sl as [w b|i [v|]|i [v|]]; try (destruct (Hno eq_refl) as [(w0 & b0 & Eb)|[]]; discriminate Eb).
    - clear Hno. destruct (bound_multiplier HO st m sp k' Hh Hm Esp Hnd obj cs slots Em Hp stat s m' eta delta Hrec Hnc Has r Hr c w b Hin) as [Hsg Hb].
      split; [exact Hsg|]. destruct Hb as [Hz|[Fb Hb]].
      + destruct (in_combine_F2 _ _ _ _ _ Hcode Hin) as (d & ((k0 & k1 & Ee) & _) & _). exists d, None. split; [exists k0, k1; exact Ee|].
        split; [intros v Hv; discriminate Hv|]. intros _ _. rewrite Hz in *. rewrite Rmult_0_l, Rabs_R0, Rmult_0_l. lra.
      + destruct (bound_close HO st m sp k' Hh Hm Esp obj cs slots Em Hp Hcode r c w b Hin Fb) as (d & Gd & Hd). exists d, None. split; [exact Gd|].
        split; [intros v Hv; discriminate Hv|]. intros Fd _. apply (Hgo _ (r (nid w) - float_value b) 0 _); [rewrite Rabs_R0; exact Hdel|exact Hb|].
        rewrite Rminus_0_r. exact (Hd Fd).
    - destruct (Hmul v Hin eq_refl Hk) as [Hsg Hb]. split; [exact Hsg|].
      assert (Hi : (i < length (m_b (base_of (sp_prob sp))))%nat).
      { destruct (@C74_rows F NF HO st m sp k' Hh Hm Esp) as [Hrows _]. pose proof (row_in fsin fcos st m sp cs slots Hp c i _ Hin) as Hi.
        apply (in_map fst) in Hi. rewrite Hrows in Hi. apply in_seq in Hi. cbn [fst] in Hi. lia. }
      destruct (nc_linear _ _ _ _ Hnc i Hi) as (Fb & Fa & Hz).
      destruct (linear_close HO st m sp k' Hh Hm Esp obj cs slots Em Hp (s_x s) (md_primals m') r Has Hr Hx Hfx c i (Some v) Hin Fb Fa) as (d & Gd & Hd).
      exists d, (Some v). split; [exact Gd|]. split; [intros v0 Hv; injection Hv as <-; exact (Hown v eq_refl)|]. intros Fd _.
      exact (Hgo _ _ _ _ Hz Hb (Hd Fd)).
    - destruct (Hmul v Hin eq_refl Hk) as [Hsg Hb]. split; [exact Hsg|].
      destruct (nonlinear_close HO st m sp k' Hh Hm Esp Hnd obj cs slots Em Hp (s_x s) (md_primals m') r Has Hr Hx q Eq c i (Some v) Hin) as (d & y & Gd & Ey & Hd).
      destruct (nc_nonlinear _ _ _ _ Hnc q Eq i y Ey) as [Fy Hz].
      exists d, (Some v). split; [exact Gd|]. split; [intros v0 Hv; injection Hv as <-; exact (Hown v eq_refl)|]. intros Fd Sd.
      exact (Hgo _ _ _ _ Hz Hb (Hd Fd Sd Fy)).
  Qed.

  (** ** C85 The point recorded by a solve whose solver answers with a feasible point, up to [eps]
      for bounds and integers and [delta] for rows, of the numbers it was given, satisfies the
      constraints of the model as real functions, up to these tolerances and rounding. *)
  Theorem C85_feasible (HO : HashOrd) (st : mstate F) solver m m' k' :
    @hist F NF any_op st -> In m (st_models st) -> @solve F NF HO solver m (st_k st) = (m', Returned (inl tt), k') -> NoDup (map cid (md_constraints m)) ->
    exists sp stat s, @std_problem F NF HO m (st_k st) = Ok (sp, k') /\ solver (sp_prob sp) = Ok (inl (stat, s)) /\
    forall eps delta r, near_feasible eps delta sp s -> 0 <= delta -> reads (md_primals m') r ->
      (forall v, model_var m v -> is_integer v = true -> near_integer eps (r (nid v))) /\
      forall c, In c (md_constraints m) ->
        exists d slack, gives (@sub_nn F NF (clhs c) (crhs c)) d /\
          (forall v, slack = Some v -> In v (map fst (sp_var2index sp)) /\ (st_k st <= nid v)%nat) /\
          (finite_constants d -> (p_affine (@std_properties F NF d) = true -> finite64 (p_b (@std_properties F NF d))) ->
           (p_affine (@std_properties F NF d) = false -> safe_quotients NF false (md_primals m') r d) ->
           rel_within (bound_slop eps c + delta + row_error NF (st_k st) r slack d) (ckd c) (real_value d r) 0).
  Proof.
    intros Hh Hm Es Hnd. destruct (@solve_ok F NF HO _ _ _ _ _ Es) as (sp & stat & s & Esp & Eso & Er).
    exists sp, stat, s. split; [exact Esp|]. split; [exact Eso|]. intros eps delta r Hnf Hdel Hr.
    assert (Has : assigns sp (s_x s) (md_primals m')).
    { destruct (@C33_primals F NF HO st solver m m' k' Hh Hm Es) as (sp0 & stat0 & s0 & Esp0 & Eso0 & _ & _ & _ & Hval).
      assert (Ep : sp0 = sp) by congruence. subst sp0. assert (Ess : s0 = s) by congruence. subst s0.
      intros v i Hv. destruct (Hval v i Hv) as (y & Ey & _ & Hg). exists y. split; assumption. }
    destruct (@arranged_code F NF HO st m sp k' Hh Hm Esp eq_refl) as (obj & cs & slots & Em & Hp & _ & Hcode & _).
    assert (Hx := nf_x _ _ _ _ Hnf). assert (Hfx := nf_finite _ _ _ _ Hnf).
    assert (Hent : forall v j, In (v, j) (sp_var2index sp) -> entry (s_x s) j = r (nid v)) by exact (entry_reads HO st m sp k' Hh Hm Esp (s_x s) (md_primals m') r Has Hr Hfx).
    split.
    { intros v Hv Hi. destruct (var_indexed HO st m sp k' Hh Hm Esp v Hv) as [j Hj]. rewrite <- (Hent v j Hj). apply (nf_integer _ _ _ _ Hnf).
      rewrite (@C28_mask F NF HO st m sp k' v j Hh Hm Esp Hj), Hi. reflexivity. }
    intros c Hc.
    destruct (evaluated_all fsin fcos Hsin Hcos HO st m sp k' Hh Hm Esp Hnd obj cs slots Em Hp (s_x s) (md_primals m') r Has Hr Hx)
      as (q & e & Eq & _).
    assert (Hsl : exists sl, In (c, sl) (combine (md_constraints m) slots)).
    { assert (Hf : map fst (combine (md_constraints m) slots) = md_constraints m) by (apply map_fst_combine; exact (Properties_Place.cs_len st m sp cs slots Hp)).
      rewrite <- Hf in Hc. apply in_map_iff in Hc as ([c0 sl] & Ec & Hin). cbn [fst] in Ec. subst c0. exists sl. exact Hin. }
    destruct Hsl as [sl Hin].
    (* what the slack allows *)
    assert (Hgo : forall v a z B, Rabs z <= delta -> rel_within (bound_slop eps c) (ckd c) a 0 -> Rabs (v - a - z) <= B ->
              rel_within (bound_slop eps c + delta + B) (ckd c) v 0).
    { clear. intros v a z B Hz Ha He. unfold rel_within in *. apply Rabs_le_inv in Hz. apply Rabs_le_inv in He.
      destruct (ckd c); [apply Rabs_le_inv in Ha; apply Rabs_le; lra|lra|lra]. }
    assert (Hown : forall v, slack_of sl = [v] -> In v (map fst (sp_var2index sp)) /\ (st_k st <= nid v)%nat).
    { intros v Hv. split; [|exact (slack_new' fsin fcos st m sp cs slots Hp c sl v Hin Hv)].
      destruct (slack_indexed HO st m sp k' Hh Hm Esp obj cs slots Em Hp c sl v Hin Hv) as [j Hj]. apply in_map_iff. exists (v, j). split; [reflexivity|exact Hj]. }
    assert (Hz0 : float_value (@n0 F NF) = 0) by exact zero_value.
    assert (Hslack : forall i o, sl = SRow i o \/ sl = SFun i o -> rel_within (bound_slop eps c) (ckd c) (slack_num r o) 0).
    { intros i o Ho.
      assert (Hany : slack_any (st_k st) cs c o).
      { pose proof (Properties_Place.cs_ok st m sp cs slots Hp c sl Hin) as Hok. destruct Ho as [->| ->]; exact (proj1 (proj2 (proj2 Hok))). }
      destruct o as [v|]; cbn [slack_num].
      - assert (Hs : slack_of sl = [v]) by (destruct Ho as [->| ->]; reflexivity).
        destruct (slack_indexed HO st m sp k' Hh Hm Esp obj cs slots Em Hp c sl v Hin Hs) as [j Hj]. rewrite <- (Hent v j Hj). unfold rel_within, bound_slop.
        destruct (ckd c) eqn:Ek.
        + exfalso. destruct (@Properties_Place.slack_new F NF st m sp cs slots Hp c sl v Hin Hs) as [_ Hb]. unfold bounds_with in Hb. rewrite Ek in Hb. exact Hb.
        + pose proof (nf_upper _ _ _ _ Hnf j _ (upper_zero HO st m sp k' Hh Hm Esp obj cs slots Em Hp c sl v j Hin Ek Hs Hj)) as [_ G]. rewrite Hz0 in G. lra.
        + pose proof (nf_lower _ _ _ _ Hnf j _ (lower_zero HO st m sp k' Hh Hm Esp obj cs slots Em Hp c sl v j Hin Ek Hs Hj)) as [_ G]. rewrite Hz0 in G. lra.
      - cbn [slack_any] in Hany. unfold rel_within, bound_slop. rewrite Hany. rewrite Rminus_0_r, Rabs_R0. apply Rle_refl. }
    assert (Hfin : forall x : F, finite64 x -> fin x) by (intros x; apply finite_fin).
    destruct sl as [w b|i o|i o].
    - clear Hslack. destruct (classic (finite64 b)) as [Fb|Fb].
      + destruct (bound_close HO st m sp k' Hh Hm Esp obj cs slots Em Hp Hcode r c w b Hin (proj2 Fb)) as (d & Gd & Hd). exists d, None. split; [exact Gd|].
        split; [intros v Hv; discriminate Hv|]. intros Fd _ _. apply (Hgo _ (r (nid w) - float_value b) 0 _); [rewrite Rabs_R0; exact Hdel| |rewrite Rminus_0_r; exact (Hd Fd)].
        destruct (bnd_index fsin fcos HO st m sp k' Hh Hm Esp obj cs slots Em Hp c w b Hin) as [j Hj]. rewrite <- (Hent w j Hj).
        destruct (Properties_Place.cs_ok st m sp cs slots Hp c _ Hin) as (_ & Hb & _). unfold bounds_with in Hb. unfold rel_within, bound_slop.
        assert (Lb : forall a : F, finite64 a -> @nleb F NF a b = true -> float_value a <= float_value b).
        { intros a Fa Hl. change (SFleb a b = true) in Hl. rewrite (fleb_fin a b (Hfin a Fa) (Hfin b Fb)) in Hl. rewrite !float_value_fval. match type of Hl with Rle_bool ?x1 ?x2 = true => destruct (Rle_bool_spec x1 x2); [assumption|discriminate Hl] end. }
        assert (Lb' : forall a : F, finite64 a -> @nleb F NF b a = true -> float_value b <= float_value a).
        { intros a Fa Hl. change (SFleb b a = true) in Hl. rewrite (fleb_fin b a (Hfin b Fb) (Hfin a Fa)) in Hl. rewrite !float_value_fval. match type of Hl with Rle_bool ?x1 ?x2 = true => destruct (Rle_bool_spec x1 x2); [assumption|discriminate Hl] end. }
        assert (Lr : @nleb F NF b b = true).
        { change (SFleb b b = true). rewrite (fleb_fin b b (Hfin b Fb) (Hfin b Fb)). apply Rle_bool_true. apply Rle_refl. }
        destruct (@Properties_Place.tightest_any F NF HO st m sp k' obj cs slots (C67_binary64 fsin fcos) Hh Hm Esp Em Hp w j Hj) as ((u & Eu & _ & Hu & _) & (l & El & _ & Hl & _)).
        destruct (ckd c) eqn:Ek; [destruct Hb| |].
        * destruct (nf_upper _ _ _ _ Hnf j u Eu) as [Fu Gu]. rewrite (ar_uppers _ _ _ _ _ Hp) in Hb. pose proof (Lb u Fu (Hu b c Hb Lr)). lra.
        * destruct (nf_lower _ _ _ _ Hnf j l El) as [Fl Gl]. rewrite (ar_lowers _ _ _ _ _ Hp) in Hb. pose proof (Lb' l Fl (Hl b c Hb Lr)). lra.
      + destruct (in_combine_F2 _ _ _ _ _ Hcode Hin) as (d & ((k0 & k1 & Ee) & _) & Haff & _ & _ & (a & _ & _ & Eb)). exists d, None. split; [exists k0, k1; exact Ee|].
        split; [intros v Hv; discriminate Hv|]. intros _ Fp _. exfalso. destruct (Fp Haff) as [Fp1 Fp2]. apply Fb. rewrite Eb. change (@nneg F NF (p_b (@std_properties F NF d))) with (SFopp (p_b (@std_properties F NF d))).
        split; [|rewrite opp_finite; exact Fp2]. revert Fp1. unfold f64. destruct (p_b (@std_properties F NF d)); auto.
    - assert (Hi : (i < length (m_b (base_of (sp_prob sp))))%nat).
      { destruct (@C74_rows F NF HO st m sp k' Hh Hm Esp) as [Hrows _]. pose proof (row_in fsin fcos st m sp cs slots Hp c i _ Hin) as Hi.
        apply (in_map fst) in Hi. rewrite Hrows in Hi. apply in_seq in Hi. cbn [fst] in Hi. lia. }
      destruct (nf_linear _ _ _ _ Hnf i Hi) as (Fb & Fa & Hz).
      destruct (linear_close HO st m sp k' Hh Hm Esp obj cs slots Em Hp (s_x s) (md_primals m') r Has Hr Hx Hfx c i o Hin Fb Fa) as (d & Gd & Hd).
      exists d, o. split; [exact Gd|]. split; [intros v Hv; apply Hown; rewrite Hv; reflexivity|]. intros Fd _ _.
      exact (Hgo _ _ _ _ Hz (Hslack i o (or_introl eq_refl)) (Hd Fd)).
    - destruct (nonlinear_close HO st m sp k' Hh Hm Esp Hnd obj cs slots Em Hp (s_x s) (md_primals m') r Has Hr Hx q Eq c i o Hin) as (d & y & Gd & Ey & Hd).
      destruct (nf_nonlinear _ _ _ _ Hnf q Eq i y Ey) as [Fy Hz].
      exists d, o. split; [exact Gd|]. split; [intros v Hv; apply Hown; rewrite Hv; reflexivity|]. intros Fd _ Sd.
      exact (Hgo _ _ _ _ Hz (Hslack i o (or_intror eq_refl)) (Hd Fd Sd Fy)).
  Qed.
End C84.

(** ** A non-trivial case: minimise x^2 + 3y with x >= 1, x + y = 4 and xy <= 3, answer x = 1, y = 3 *)
Section Ex84.
  Local Open Scope string_scope.
  Notation NM := (NumF (machine sin) (machine cos)).
  Definition c84_sol : sol F := mk_sol [flit 0; flit 1; flit 3] [flit 4] [flit (-2)] [flit 2; flit 0; flit 0] [flit 0; flit 4; flit 0].
  Definition c84_solver (p : problem F) : res answer := Ok (inl (Solved, c84_sol)).
  Definition c84_ready (vs : vals F) (d : node F) : Prop := finite_constants d /\ (p_affine (@std_properties F NM d) = false -> safe_quotients NM false vs c83_r d).
  Example C84_example : exists (st : mstate F) m sp k' m',
    accurate (machine sin) sin /\ accurate (machine cos) cos /\
    @hist F NM any_op st /\ In m (st_models st) /\ @std_problem F NM ord_id m (st_k st) = Ok (sp, k') /\
    @solve F NM ord_id c84_solver m (st_k st) = (m', Returned (inl tt), k') /\ NoDup (map cid (md_constraints m)) /\
    near_complementary 0 0 sp c84_sol /\ reads (md_primals m') c83_r /\
    (forall c d, In c (md_constraints m) -> gives (@sub_nn F NM (clhs c) (crhs c)) d -> c84_ready (md_primals m') d) /\
    map ckd (md_constraints m) = [GreaterEqual; Equal; LessEqual] /\
    map (recorded_dual m') (md_constraints m) = [float_value (flit 4); float_value (flit 4); float_value (flit 2)].
  Proof.
    assert (C : match @mrun F NM ord_id c83_prog mstart with
                | Some st => match st_models st with
                  | [m] => md_constraints m = c83_cons /\
                    match @std_problem F NM ord_id m (st_k st) with
                    | Ok (sp, _) => m_nx (base_of (sp_prob sp)) = 3%nat /\ m_b (base_of (sp_prob sp)) = [flit 4] /\
                        entries (m_a (base_of (sp_prob sp))) = [(0%nat, 1%nat, flit 1); (0%nat, 2%nat, flit 1)] /\
                        m_u (base_of (sp_prob sp)) = [flit 0; flit 100000000; flit 100000000] /\
                        m_l (base_of (sp_prob sp)) = [flit (-100000000); flit 1; flit (-100000000)] /\
                        match minlp_evaluate (base_of (sp_prob sp)) (s_x c84_sol) with
                        | Ok q => b_f (m_bufs q) = [flit 0]
                        | Panic _ => False end
                    | Panic _ => False end /\
                    match @solve F NM ord_id c84_solver m (st_k st) with
                    | (m', Returned (inl tt), _) => md_primals m' = [(NVar 53 "_s_j0_" VarContinuous, flit 0); (c74_x, flit 1); (c74_y, flit 3)] /\
                         map (fun c => hget constr_eqb c (md_duals m')) c83_cons = [Some (flit 4); Some (flit 4); Some (flit 2)]
                    | _ => False end
                  | _ => False end
                | None => False end) by (vm_compute; repeat split).
    destruct (@mrun F NM ord_id c83_prog mstart) as [st|] eqn:E; [|destruct C].
    destruct (st_models st) as [|m [|]] eqn:Em; try (destruct C; fail). destruct C as (C1 & C2 & C3).
    destruct (@std_problem F NM ord_id m (st_k st)) as [[sp k']|] eqn:Es; [|destruct C2].
    destruct C2 as (D1 & D2 & D3 & D4 & D5 & D6).
    destruct (minlp_evaluate (base_of (sp_prob sp)) (s_x c84_sol)) as [q|] eqn:Eq; [|destruct D6].
    destruct (@solve F NM ord_id c84_solver m (st_k st)) as [[m' [[[]|]|]] k2] eqn:Ev; try (destruct C3; fail). destruct C3 as (C4 & C5).
    assert (Ek : k2 = k').
    { destruct (@solve_ok F NM ord_id _ _ _ _ _ Ev) as (sp0 & stat0 & s0 & Es0 & _). rewrite Es in Es0. congruence. }
    subst k2.
    assert (I0 : forall z, (Z.abs z <= 2 ^ 53)%Z -> finite64 (flit z) /\ float_value (flit z) = IZR z).
    { intros z Hz. destruct (flit_int z Hz) as [F1 V1]. split; [apply finite_fin; exact F1|]. rewrite float_value_fval. exact V1. }
    destruct (I0 0%Z ltac:(cbn; lia)) as [F0 V0]. destruct (I0 1%Z ltac:(cbn; lia)) as [F1 V1]. destruct (I0 2%Z ltac:(cbn; lia)) as [F2 V2]. destruct (I0 3%Z ltac:(cbn; lia)) as [F3 V3].
    destruct (I0 4%Z ltac:(cbn; lia)) as [F4 V4]. destruct (I0 (-2)%Z ltac:(cbn; lia)) as [F5 V5]. destruct (I0 (-1)%Z ltac:(cbn; lia)) as [F6 V6].
    destruct (I0 (-3)%Z ltac:(cbn; lia)) as [F7 V7]. destruct (I0 (-4)%Z ltac:(cbn; lia)) as [F8 V8].
    destruct (I0 100000000%Z ltac:(cbn; lia)) as [_ V9]. destruct (I0 (-100000000)%Z ltac:(cbn; lia)) as [_ V10]. clear I0.
    exists st, m, sp, k', m'. destruct C76_accurate as [A1 A2]. split; [exact A1|]. split; [exact A2|].
    split; [eapply (@mrun_hist F NM ord_id c83_prog mstart); [constructor|exact E]|].
    split; [rewrite Em; left; reflexivity|]. split; [exact Es|]. split; [exact Ev|].
    split; [rewrite C1; cbn [map cid c83_cons]; repeat constructor; cbn; intuition discriminate|].
    split.
    { constructor.
      - rewrite D1. reflexivity.
      - repeat constructor.
      - intros i Hi. rewrite D2 in *. cbn [length] in Hi. destruct i as [|i]; [|exfalso; lia]. split; [reflexivity|]. split.
        + intros j. unfold stored_finite, at_pos. rewrite D3. destruct j as [|[|[|j]]]; cbn; repeat constructor.
        + unfold linear_miss, stored, at_pos, entry. rewrite D1, D3. unfold c84_sol. cbn [s_x seq map filter fst snd Nat.eqb andb nth total fold_right].
          rewrite ?V0, ?V1, ?V2, ?V3, ?V4. apply Rabs_le. lra.
      - intros q0 Eq0 i y Hy. assert (q0 = q) as -> by congruence. rewrite D6 in Hy. destruct i as [|i]; [|destruct i; discriminate Hy].
        assert (y = flit 0) as -> by (cbn [nth_error] in Hy; congruence). split; [reflexivity|]. rewrite V0, Rabs_R0. lra.
      - intros j u Hj. rewrite D4 in Hj. unfold multiplier, entry, c84_sol. cbn [s_mu s_x].
        destruct j as [|[|[|j]]]; cbn [nth_error nth] in *; [assert (u = flit 0) as -> by congruence|assert (u = flit 100000000) as -> by congruence|assert (u = flit 100000000) as -> by congruence|destruct j; discriminate Hj]; (split; [reflexivity|]);
          rewrite ?V0, ?V1, ?V2, ?V3, ?V9; (split; [lra|]); apply Rabs_le; lra.
      - intros j u Hj. rewrite D5 in Hj. unfold multiplier, entry, c84_sol. cbn [s_pi s_x].
        destruct j as [|[|[|j]]]; cbn [nth_error nth] in *; [assert (u = flit (-100000000)) as -> by congruence|assert (u = flit 1) as -> by congruence|assert (u = flit (-100000000)) as -> by congruence|destruct j; discriminate Hj]; (split; [reflexivity|]);
          rewrite ?V0, ?V1, ?V3, ?V4, ?V10; (split; [lra|]); apply Rabs_le; lra. }
    split.
    { rewrite C4. intros v x Hv Hg. destruct v as [i c|i s kd|i l|i a|i a b|i a b|i a]; try discriminate Hv. unfold c74_x, c74_y in Hg. cbn [hget ptr_eq] in Hg.
      destruct (Nat.eqb i 53) eqn:Ei0; [|destruct (Nat.eqb i 0) eqn:Ei; [|destruct (Nat.eqb i 1) eqn:Ei1; [|discriminate Hg]]].
      - apply Nat.eqb_eq in Ei0. assert (x = flit 0) as -> by congruence. subst i. split; [apply F0|reflexivity].
      - apply Nat.eqb_eq in Ei. assert (x = flit 1) as -> by congruence. subst i. split; [apply F1|reflexivity].
      - apply Nat.eqb_eq in Ei1. assert (x = flit 3) as -> by congruence. subst i. split; [apply F3|reflexivity]. }
    split.
    { rewrite C1. intros c d Hc (k0 & k1 & E0). unfold c83_cons in Hc. destruct Hc as [<-|[<-|[<-|[]]]]; cbn [clhs crhs] in E0.
      - assert (Ed : d = NAdd (Datatypes.S (Datatypes.S k0)) [c74_x; NConst (Datatypes.S k0) (flit (-1))])
          by (vm_compute in E0; injection E0 as <- _; vm_compute; reflexivity).
        rewrite Ed. split; [|intros _; repeat split]. intros i v Hs. unfold c74_x in Hs.
        repeat match goal with
        | Hs : sub _ (NVar _ _ _) |- _ => inversion Hs; clear Hs; subst
        | Hs : sub _ (NConst _ _) |- _ => inversion Hs; clear Hs; subst
        | Hs : sub _ (NAdd _ _) |- _ => inversion Hs; clear Hs; subst
        | Hi : In _ _ |- _ => cbn [arguments In] in Hi
        | Hi : _ \/ _ |- _ => destruct Hi as [<-|Hi]
        | Hi : False |- _ => destruct Hi
        end; exact F6.
      - assert (Ed : d = NAdd (Datatypes.S (Datatypes.S k0)) [c74_x; c74_y; NConst (Datatypes.S k0) (flit (-4))])
          by (vm_compute in E0; injection E0 as <- _; vm_compute; reflexivity).
        rewrite Ed. split; [|intros _; repeat split]. intros i v Hs. unfold c74_x, c74_y in Hs.
        repeat match goal with
        | Hs : sub _ (NVar _ _ _) |- _ => inversion Hs; clear Hs; subst
        | Hs : sub _ (NConst _ _) |- _ => inversion Hs; clear Hs; subst
        | Hs : sub _ (NAdd _ _) |- _ => inversion Hs; clear Hs; subst
        | Hi : In _ _ |- _ => cbn [arguments In] in Hi
        | Hi : _ \/ _ |- _ => destruct Hi as [<-|Hi]
        | Hi : False |- _ => destruct Hi
        end; exact F8.
      - assert (Ed : d = NAdd (Datatypes.S (Datatypes.S k0)) [NMul 7 c74_x c74_y; NConst (Datatypes.S k0) (flit (-3))])
          by (vm_compute in E0; injection E0 as <- _; vm_compute; reflexivity).
        rewrite Ed. split; [|intros _; repeat split]. intros i v Hs. unfold c74_x, c74_y in Hs.
        repeat match goal with
        | Hs : sub _ (NVar _ _ _) |- _ => inversion Hs; clear Hs; subst
        | Hs : sub _ (NConst _ _) |- _ => inversion Hs; clear Hs; subst
        | Hs : sub _ (NMul _ _ _) |- _ => inversion Hs; clear Hs; subst
        | Hs : sub _ (NAdd _ _) |- _ => inversion Hs; clear Hs; subst
        | Hi : In _ _ |- _ => cbn [arguments In] in Hi
        | Hi : _ \/ _ |- _ => destruct Hi as [<-|Hi]
        | Hi : False |- _ => destruct Hi
        end; exact F7. }
    split; [rewrite C1; reflexivity|].
    rewrite C1. unfold recorded_dual. change (fun c => match hget constr_eqb c (md_duals m') with Some y => float_value y | None => 0 end)
      with (fun c => (fun o => match o with Some y => float_value y | None => 0 end) ((fun c => hget constr_eqb c (md_duals m')) c)).
    rewrite <- (map_map (fun c => hget constr_eqb c (md_duals m')) (fun o => match o with Some y => float_value y | None => 0 end)), C5. reflexivity.
  Qed.
  Definition c85_ready (vs : vals F) (d : node F) : Prop := finite_constants d /\ (p_affine (@std_properties F NM d) = true -> finite64 (p_b (@std_properties F NM d))) /\ (p_affine (@std_properties F NM d) = false -> safe_quotients NM false vs c83_r d).
  Example C85_example : exists (st : mstate F) m sp k' m',
    accurate (machine sin) sin /\ accurate (machine cos) cos /\
    @hist F NM any_op st /\ In m (st_models st) /\ @std_problem F NM ord_id m (st_k st) = Ok (sp, k') /\
    @solve F NM ord_id c84_solver m (st_k st) = (m', Returned (inl tt), k') /\ NoDup (map cid (md_constraints m)) /\
    near_feasible 0 0 sp c84_sol /\ reads (md_primals m') c83_r /\
    (forall c d, In c (md_constraints m) -> gives (@sub_nn F NM (clhs c) (crhs c)) d -> c85_ready (md_primals m') d) /\
    map ckd (md_constraints m) = [GreaterEqual; Equal; LessEqual].
  Proof.
    assert (C : match @mrun F NM ord_id c83_prog mstart with
                | Some st => match st_models st with
                  | [m] => md_constraints m = c83_cons /\
                    match @std_problem F NM ord_id m (st_k st) with
                    | Ok (sp, _) => m_nx (base_of (sp_prob sp)) = 3%nat /\ m_b (base_of (sp_prob sp)) = [flit 4] /\
                        entries (m_a (base_of (sp_prob sp))) = [(0%nat, 1%nat, flit 1); (0%nat, 2%nat, flit 1)] /\
                        m_u (base_of (sp_prob sp)) = [flit 0; flit 100000000; flit 100000000] /\
                        m_l (base_of (sp_prob sp)) = [flit (-100000000); flit 1; flit (-100000000)] /\ m_p (base_of (sp_prob sp)) = [false; false; false] /\
                        match minlp_evaluate (base_of (sp_prob sp)) (s_x c84_sol) with
                        | Ok q => b_f (m_bufs q) = [flit 0]
                        | Panic _ => False end
                    | Panic _ => False end /\
                    match @solve F NM ord_id c84_solver m (st_k st) with
                    | (m', Returned (inl tt), _) => md_primals m' = [(NVar 53 "_s_j0_" VarContinuous, flit 0); (c74_x, flit 1); (c74_y, flit 3)] /\
                         map (fun c => hget constr_eqb c (md_duals m')) c83_cons = [Some (flit 4); Some (flit 4); Some (flit 2)]
                    | _ => False end
                  | _ => False end
                | None => False end) by (vm_compute; repeat split).
    destruct (@mrun F NM ord_id c83_prog mstart) as [st|] eqn:E; [|destruct C].
    destruct (st_models st) as [|m [|]] eqn:Em; try (destruct C; fail). destruct C as (C1 & C2 & C3).
    destruct (@std_problem F NM ord_id m (st_k st)) as [[sp k']|] eqn:Es; [|destruct C2].
    destruct C2 as (D1 & D2 & D3 & D4 & D5 & D7 & D6).
    destruct (minlp_evaluate (base_of (sp_prob sp)) (s_x c84_sol)) as [q|] eqn:Eq; [|destruct D6].
    destruct (@solve F NM ord_id c84_solver m (st_k st)) as [[m' [[[]|]|]] k2] eqn:Ev; try (destruct C3; fail). destruct C3 as (C4 & C5).
    assert (Ek : k2 = k').
    { destruct (@solve_ok F NM ord_id _ _ _ _ _ Ev) as (sp0 & stat0 & s0 & Es0 & _). rewrite Es in Es0. congruence. }
    subst k2.
    assert (I0 : forall z, (Z.abs z <= 2 ^ 53)%Z -> finite64 (flit z) /\ float_value (flit z) = IZR z).
    { intros z Hz. destruct (flit_int z Hz) as [F1 V1]. split; [apply finite_fin; exact F1|]. rewrite float_value_fval. exact V1. }
    destruct (I0 0%Z ltac:(cbn; lia)) as [F0 V0]. destruct (I0 1%Z ltac:(cbn; lia)) as [F1 V1]. destruct (I0 2%Z ltac:(cbn; lia)) as [F2 V2]. destruct (I0 3%Z ltac:(cbn; lia)) as [F3 V3].
    destruct (I0 4%Z ltac:(cbn; lia)) as [F4 V4]. destruct (I0 (-2)%Z ltac:(cbn; lia)) as [F5 V5]. destruct (I0 (-1)%Z ltac:(cbn; lia)) as [F6 V6].
    destruct (I0 (-3)%Z ltac:(cbn; lia)) as [F7 V7]. destruct (I0 (-4)%Z ltac:(cbn; lia)) as [F8 V8].
    destruct (I0 100000000%Z ltac:(cbn; lia)) as [_ V9]. destruct (I0 (-100000000)%Z ltac:(cbn; lia)) as [_ V10]. clear I0.
    exists st, m, sp, k', m'. destruct C76_accurate as [A1 A2]. split; [exact A1|]. split; [exact A2|].
    split; [eapply (@mrun_hist F NM ord_id c83_prog mstart); [constructor|exact E]|].
    split; [rewrite Em; left; reflexivity|]. split; [exact Es|]. split; [exact Ev|].
    split; [rewrite C1; cbn [map cid c83_cons]; repeat constructor; cbn; intuition discriminate|].
    split.
    { constructor.
      - rewrite D1. reflexivity.
      - repeat constructor.
      - intros i Hi. rewrite D2 in *. cbn [length] in Hi. destruct i as [|i]; [|exfalso; lia]. split; [reflexivity|]. split.
        + intros j. unfold stored_finite, at_pos. rewrite D3. destruct j as [|[|[|j]]]; cbn; repeat constructor.
        + unfold linear_miss, stored, at_pos, entry. rewrite D1, D3. unfold c84_sol. cbn [s_x seq map filter fst snd Nat.eqb andb nth total fold_right].
          rewrite ?V0, ?V1, ?V2, ?V3, ?V4. apply Rabs_le. lra.
      - intros q0 Eq0 i y Hy. assert (q0 = q) as -> by congruence. rewrite D6 in Hy. destruct i as [|i]; [|destruct i; discriminate Hy].
        assert (y = flit 0) as -> by (cbn [nth_error] in Hy; congruence). split; [reflexivity|]. rewrite V0, Rabs_R0. lra.
      - intros j u Hj. rewrite D4 in Hj. unfold entry, c84_sol. cbn [s_x].
        destruct j as [|[|[|j]]]; cbn [nth_error nth] in *; [assert (u = flit 0) as -> by congruence|assert (u = flit 100000000) as -> by congruence|assert (u = flit 100000000) as -> by congruence|destruct j; discriminate Hj]; (split; [split; reflexivity|]);
          rewrite ?V0, ?V1, ?V2, ?V3, ?V9; lra.
      - intros j u Hj. rewrite D5 in Hj. unfold entry, c84_sol. cbn [s_x].
        destruct j as [|[|[|j]]]; cbn [nth_error nth] in *; [assert (u = flit (-100000000)) as -> by congruence|assert (u = flit 1) as -> by congruence|assert (u = flit (-100000000)) as -> by congruence|destruct j; discriminate Hj]; (split; [split; reflexivity|]);
          rewrite ?V0, ?V1, ?V3, ?V4, ?V10; lra.
      - intros j Hj. rewrite D7 in Hj. destruct j as [|[|[|j]]]; cbn [nth_error] in Hj; try discriminate Hj. destruct j; discriminate Hj. }
    split.
    { rewrite C4. intros v x Hv Hg. destruct v as [i c|i s kd|i l|i a|i a b|i a b|i a]; try discriminate Hv. unfold c74_x, c74_y in Hg. cbn [hget ptr_eq] in Hg.
      destruct (Nat.eqb i 53) eqn:Ei0; [|destruct (Nat.eqb i 0) eqn:Ei; [|destruct (Nat.eqb i 1) eqn:Ei1; [|discriminate Hg]]].
      - apply Nat.eqb_eq in Ei0. assert (x = flit 0) as -> by congruence. subst i. split; [apply F0|reflexivity].
      - apply Nat.eqb_eq in Ei. assert (x = flit 1) as -> by congruence. subst i. split; [apply F1|reflexivity].
      - apply Nat.eqb_eq in Ei1. assert (x = flit 3) as -> by congruence. subst i. split; [apply F3|reflexivity]. }
    split.
    { rewrite C1. intros c d Hc (k0 & k1 & E0). unfold c83_cons in Hc. destruct Hc as [<-|[<-|[<-|[]]]]; cbn [clhs crhs] in E0.
      - assert (Ed : d = NAdd (Datatypes.S (Datatypes.S k0)) [c74_x; NConst (Datatypes.S k0) (flit (-1))])
          by (vm_compute in E0; injection E0 as <- _; vm_compute; reflexivity).
        rewrite Ed. split; [|split; [intros Ha; (split; reflexivity) || discriminate Ha|intros _; repeat split]]. intros i v Hs. unfold c74_x in Hs.
        repeat match goal with
        | Hs : sub _ (NVar _ _ _) |- _ => inversion Hs; clear Hs; subst
        | Hs : sub _ (NConst _ _) |- _ => inversion Hs; clear Hs; subst
        | Hs : sub _ (NAdd _ _) |- _ => inversion Hs; clear Hs; subst
        | Hi : In _ _ |- _ => cbn [arguments In] in Hi
        | Hi : _ \/ _ |- _ => destruct Hi as [<-|Hi]
        | Hi : False |- _ => destruct Hi
        end; exact F6.
      - assert (Ed : d = NAdd (Datatypes.S (Datatypes.S k0)) [c74_x; c74_y; NConst (Datatypes.S k0) (flit (-4))])
          by (vm_compute in E0; injection E0 as <- _; vm_compute; reflexivity).
        rewrite Ed. split; [|split; [intros Ha; (split; reflexivity) || discriminate Ha|intros _; repeat split]]. intros i v Hs. unfold c74_x, c74_y in Hs.
        repeat match goal with
        | Hs : sub _ (NVar _ _ _) |- _ => inversion Hs; clear Hs; subst
        | Hs : sub _ (NConst _ _) |- _ => inversion Hs; clear Hs; subst
        | Hs : sub _ (NAdd _ _) |- _ => inversion Hs; clear Hs; subst
        | Hi : In _ _ |- _ => cbn [arguments In] in Hi
        | Hi : _ \/ _ |- _ => destruct Hi as [<-|Hi]
        | Hi : False |- _ => destruct Hi
        end; exact F8.
      - assert (Ed : d = NAdd (Datatypes.S (Datatypes.S k0)) [NMul 7 c74_x c74_y; NConst (Datatypes.S k0) (flit (-3))])
          by (vm_compute in E0; injection E0 as <- _; vm_compute; reflexivity).
        rewrite Ed. split; [|split; [intros Ha; (split; reflexivity) || discriminate Ha|intros _; repeat split]]. intros i v Hs. unfold c74_x, c74_y in Hs.
        repeat match goal with
        | Hs : sub _ (NVar _ _ _) |- _ => inversion Hs; clear Hs; subst
        | Hs : sub _ (NConst _ _) |- _ => inversion Hs; clear Hs; subst
        | Hs : sub _ (NMul _ _ _) |- _ => inversion Hs; clear Hs; subst
        | Hs : sub _ (NAdd _ _) |- _ => inversion Hs; clear Hs; subst
        | Hi : In _ _ |- _ => cbn [arguments In] in Hi
        | Hi : _ \/ _ |- _ => destruct Hi as [<-|Hi]
        | Hi : False |- _ => destruct Hi
        end; exact F7. }
    rewrite C1. reflexivity.
  Qed.
End Ex84.
