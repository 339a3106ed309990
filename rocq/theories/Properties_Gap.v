(** Property C79: nonlinear constraints, the rows handed to the solver, and violations, in
    binary64 arithmetic. *)
From Verif Require Import Base Num Node NodeInd NodeDiff NodeStd Constraint Matrix Problem ModelStd Model
     ExprSpec World MapProofs EvalProofs PathProofs DerivProofs DiffProofs PanicProofs GradProofs
     MatSpec MatrixProofs ProblemProofs ModelSpec Api ApiProofs ModelApi HistProofs StdMain EvalRun Properties_Expr Properties_Constr Properties_Std ModelExample Properties_Solve
     TextSpec ExactSpec RoundSpec PolySpec FmtProofs FloatProofs FloatOps RoundOps RoundProofs Properties_Text Properties_Exact Properties_Round
     BitSpec BitProofs Properties_Bit ArithKind DerEstSpec DerEstProofs Properties_DerEst Properties_Full PlaceSpec Properties_Place GapSpec.
From Coq Require Import Reals Lra Lia Floats.SpecFloat.
From Flocq Require Import Core.
Import RoundSpec.
Local Open Scope R_scope.

Section C79.
  Variables fsin fcos : F -> F.
  Notation NF := (NumF fsin fcos).
  Local Instance num_f : Num F := NF.
  Notation ev vs n := (@evaluate F NF vs n).

  (** From the values of the sides to the violation. *)
  Lemma violation_sv vs r c ka kb ma mb : sv (ev vs (clhs c)) (real_value (clhs c) r) ma ka -> sv (ev vs (crhs c)) (real_value (crhs c) r) mb kb ->
    finiteb (ev vs (clhs c)) = true -> finiteb (ev vs (crhs c)) = true -> finiteb (@violation F NF vs c) = true ->
    Rabs (float_value (@violation F NF vs c) - real_violation c r) <= error_bound (ka + kb + 1) (ma + mb).
  Proof.
    intros Sa Sb Fa Fb Fv.
    assert (Ia : fin (ev vs (clhs c))) by (apply finite_fin; split; [apply Sa|exact Fa]). assert (Ib : fin (ev vs (crhs c))) by (apply finite_fin; split; [apply Sb|exact Fb]).
    rewrite float_value_fval. unfold violation, real_violation in *. destruct (ckd c).
    - set (x := ev vs (clhs c)) in *. set (y := ev vs (crhs c)) in *. clearbody x y.
      change (finiteb (SFabs (SFsub 53 1024 x y)) = true) in Fv.
      change (Rabs (fval (SFabs (SFsub 53 1024 x y)) - Rabs (real_value (clhs c) r - real_value (crhs c) r)) <= gam (ka + kb + 1) * (ma + mb)).
      assert (Fs : fin (SFsub 53 1024 x y)).
      { split; [apply sub_vb; [apply Ia|apply Ib]|]. destruct (SFsub 53 1024 x y); try discriminate Fv; reflexivity. }
      rewrite (proj2 (fabs_fin _ Fs)). eapply Rle_trans; [apply Rabs_triang_inv2|]. apply sub_sv; auto.
    - exact (viol_err _ _ _ _ _ _ _ _ Sa Sb Ia Ib Fv).
    - rewrite (Nat.add_comm ka), (Rplus_comm ma). exact (viol_err _ _ _ _ _ _ _ _ Sb Sa Ib Ia Fv).
  Qed.
  Lemma violation_built vs r c : reads vs r -> @well_built F NF (clhs c) -> @well_built F NF (crhs c) ->
    fine fsin fcos false vs r (clhs c) -> fine fsin fcos false vs r (crhs c) ->
    finiteb (ev vs (clhs c)) = true -> finiteb (ev vs (crhs c)) = true ->
    near (@violation F NF vs c) (real_violation c r) (sides_est c) r.
  Proof.
    intros Hr Wa Wb Ga Gb Fa Fb Fv.
    exact (violation_sv vs r c _ _ _ _ (good_sv _ _ _ _ _ _ _ (built_value fsin fcos vs r _ false Hr Wa Ga)) (good_sv _ _ _ _ _ _ _ (built_value fsin fcos vs r _ false Hr Wb Gb)) Fa Fb Fv).
  Qed.

  Lemma gap k (a b s : R) :
    match k with Equal => Rabs (a - b) | LessEqual => Rmax 0 (a - b) | GreaterEqual => Rmax 0 (b - a) end <= Rabs (a - b - s) + slack_excess k s.
  Proof. unfold slack_excess. destruct k; unfold Rmax, Rabs; repeat destruct (Rle_dec _ _); repeat destruct (Rcase_abs _); lra. Qed.

  Hypothesis Hsin : accurate fsin sin.
  Hypothesis Hcos : accurate fcos cos.

  (** ** C79 The violation of a constraint is that of the real functions of its sides, up to rounding. *)
  Theorem C79_violation k pool c vs r :
    @reach F NF any_op k pool -> In (clhs c) pool -> In (crhs c) pool -> finite_constants (clhs c) -> finite_constants (crhs c) -> reads vs r ->
    safe_quotients NF false vs r (clhs c) -> safe_quotients NF false vs r (crhs c) ->
    finiteb (ev vs (clhs c)) = true -> finiteb (ev vs (crhs c)) = true ->
    near (@violation F NF vs c) (real_violation c r) (sides_est c) r.
  Proof.
    intros Hp Ha Hb Fa Fb Hr Qa Qb. apply violation_built; try exact Hr; try (eapply reach_built; eassumption); apply safe_fine; assumption.
  Qed.

  Lemma F2_in_l {A B} (Q : A -> B -> Prop) l l' : Forall2 Q l l' -> forall a, In a l -> exists b, Q a b.
  Proof. induction 1 as [|x y l l' H1 _ IH]; intros a Ha; [destruct Ha|]. destruct Ha as [<-|Ha]; [exists y; exact H1|exact (IH a Ha)]. Qed.
  Lemma leb_fin x y : finite64 x -> finite64 y -> SFleb x y = true -> float_value x <= float_value y.
  Proof.
    intros Hx Hy Hl. apply finite_fin in Hx. apply finite_fin in Hy. rewrite (fleb_fin x y Hx Hy) in Hl. rewrite !float_value_fval.
    destruct (Rle_bool_spec (fval x) (fval y)) as [Q|Q]; [exact Q|discriminate Hl].
  Qed.
  Definition row_says (vs : vals F) (r : nat -> R) (c : constraint F) (sl : option (node F)) (y : F) : Prop :=
    finite_constants (clhs c) -> finite_constants (crhs c) -> safe_quotients NF false vs r (clhs c) -> safe_quotients NF false vs r (crhs c) ->
             near y (real_value (clhs c) r - real_value (crhs c) r - slack_value sl r) (full_est c sl) r /\
             (finiteb y = true ->
                real_violation c r <= Rabs (float_value y) + slack_excess (ckd c) (slack_value sl r) + error_bound (e_ops (full_est c sl)) (e_mag (full_est c sl) r)) /\
             (finiteb y = true -> finiteb (ev vs (clhs c)) = true -> finiteb (ev vs (crhs c)) = true -> finiteb (@violation F NF vs c) = true ->
                float_value (@violation F NF vs c) <= Rabs (float_value y) + slack_excess (ckd c) (slack_value sl r) +
                  error_bound (e_ops (full_est c sl)) (e_mag (full_est c sl) r) + error_bound (e_ops (sides_est c)) (e_mag (sides_est c) r)).
  Lemma row_slack (HO : HashOrd) (st : mstate F) m sp k' q x vs r :
    @hist F NF any_op st -> In m (st_models st) -> @std_problem F NF HO m (st_k st) = Ok (sp, k') ->
    class_of (sp_prob sp) = ClNlp \/ class_of (sp_prob sp) = ClMinlp ->
    @evolves F NF (base_of (sp_prob sp)) q -> length x = m_nx (base_of (sp_prob sp)) -> assigns sp x vs -> reads vs r ->
    exists q', @minlp_evaluate F q x = Ok q' /\
      forall i c, In (i, c) (sp_jcons sp) -> In c (md_constraints m) /\
        exists sl y, own_slack (st_k st) sp c sl /\ nth_error (b_f (m_bufs q')) i = Some y /\ row_says vs r c sl y /\
          forall s, sl = Some s -> is_var s = true /\ forall obj cs, @model_std F NF HO m (st_k st) = Ok ((obj, cs), k') -> bounds_with cs c s (@n0 F NF).
  Proof.
    intros Hh Hm E Hcl Hq Hx Has Hr.
    destruct (@nonlinear_slacks F NF HO st m sp k' eq_refl Hh Hm E q x Hcl Hq Hx) as (q' & Eq & _ & _ & _ & Hrows).
    exists q'. split; [exact Eq|]. intros i c Hic. destruct (Hrows i c Hic) as (Hcm & sl & Hsl & [(y & Hy & Hf) (d & h & Hd & (f & Hm') & _)] & Hbnd).
    assert (Hvs : forall s, sl = Some s -> is_var s = true).
    { intros s Es. rewrite Es in Hsl. destruct Hsl as (_ & Hs & _).
      destruct (@C24_bijection F NF HO st m sp k' Hh Hm E eq_refl) as (_ & _ & _ & Hk & _).
      destruct (Hk s Hs) as [Hmv|(_ & nm & ->)]; [|reflexivity].
      destruct Hmv as [Hmv|(c0 & _ & [[Hmv _]|[Hmv _]])]; [|exact Hmv|exact Hmv]. destruct (md_objective m); [exact (proj1 Hmv)|exact (proj1 Hmv)|destruct Hmv]. }
    split; [exact Hcm|]. exists sl, y. split; [exact Hsl|]. split; [exact Hy|]. split.
    2:{ intros s Es. split; [exact (Hvs s Es)|]. intros obj cs. apply Hbnd. exact Es. }
    intros Fa Fb Qa Qb.
    destruct (@hist_run F NF HO st m sp k' Hh Hm E) as (S & _ & _ & _ & _ & _ & _ & _ & _ & _ & _ & _ & Mi & HW & _).
    destruct Mi as [_ Mc _ _]. rewrite Forall_forall in Mc. destruct (Mc c Hcm) as [Sa Sb].
    pose proof (world_built _ _ _ _ HW Sa) as Wa. pose proof (world_built _ _ _ _ HW Sb) as Wb.
    pose proof (safe_fine fsin fcos false vs r _ Hsin Hcos Fa Qa) as Ga. pose proof (safe_fine fsin fcos false vs r _ Hsin Hcos Fb Qb) as Gb.
    pose proof (built_value fsin fcos vs r _ false Hr Wa Ga) as Va. pose proof (built_value fsin fcos vs r _ false Hr Wb Gb) as Vb.
    destruct Hd as (k1 & k2 & Ed). pose proof (sub_nn_good fsin fcos vs _ _ _ _ _ _ _ _ d k1 k2 Va Vb Ed) as Vd.
    assert (N : near y (real_value (clhs c) r - real_value (crhs c) r - slack_value sl r) (full_est c sl) r).
    { rewrite <- (Hf d f (ex_intro _ k1 (ex_intro _ k2 Ed)) Hm' vs Has). apply good_near.
      destruct sl as [s|]; cbn [minus_slack slack_value full_est] in *.
      - destruct Hm' as (k3 & k4 & Ef). pose proof (Hvs s eq_refl) as Hv.
        destruct s as [| j nm kd| | | | | ]; try discriminate Hv.
        pose proof (reads_var fsin fcos vs r j nm kd Hr) as Gs. cbn [real_value est_of e_sub e_ops e_mag sides_est]. exact (sub_nn_good fsin fcos vs d _ _ _ _ _ _ _ f k3 k4 Vd Gs Ef).
      - subst f. rewrite Rminus_0_r. exact Vd. }
    assert (T : finiteb y = true ->
      real_violation c r <= Rabs (float_value y) + slack_excess (ckd c) (slack_value sl r) + error_bound (e_ops (full_est c sl)) (e_mag (full_est c sl) r)).
    { intros Fy. specialize (N Fy). pose proof (gap (ckd c) (real_value (clhs c) r) (real_value (crhs c) r) (slack_value sl r)) as G.
      unfold real_violation. eapply Rle_trans; [exact G|].
      pose proof (Rabs_triang (float_value y) (- (float_value y - (real_value (clhs c) r - real_value (crhs c) r - slack_value sl r)))) as G2. rewrite Rabs_Ropp in G2.
      replace (float_value y + - (float_value y - (real_value (clhs c) r - real_value (crhs c) r - slack_value sl r))) with (real_value (clhs c) r - real_value (crhs c) r - slack_value sl r) in G2 by ring. lra. }
    split; [exact N|]. split; [exact T|]. intros Fy Ea Eb Fv. specialize (T Fy).
    pose proof (violation_built vs r c Hr Wa Wb Ga Gb Ea Eb Fv) as G. apply Rabs_le_inv in G. lra.
  Qed.

  (** ** C79 The row of a nonlinear constraint. *)
  Theorem C79_row (HO : HashOrd) (st : mstate F) m sp k' q x vs r :
    @hist F NF any_op st -> In m (st_models st) -> @std_problem F NF HO m (st_k st) = Ok (sp, k') ->
    class_of (sp_prob sp) = ClNlp \/ class_of (sp_prob sp) = ClMinlp ->
    @evolves F NF (base_of (sp_prob sp)) q -> length x = m_nx (base_of (sp_prob sp)) -> assigns sp x vs -> reads vs r ->
    exists q', @minlp_evaluate F q x = Ok q' /\
      forall i c, In (i, c) (sp_jcons sp) -> In c (md_constraints m) /\
        exists sl y, own_slack (st_k st) sp c sl /\ nth_error (b_f (m_bufs q')) i = Some y /\
          (finite_constants (clhs c) -> finite_constants (crhs c) -> safe_quotients NF false vs r (clhs c) -> safe_quotients NF false vs r (crhs c) ->
             near y (real_value (clhs c) r - real_value (crhs c) r - slack_value sl r) (full_est c sl) r /\
             (finiteb y = true ->
                real_violation c r <= Rabs (float_value y) + slack_excess (ckd c) (slack_value sl r) + error_bound (e_ops (full_est c sl)) (e_mag (full_est c sl) r)) /\
             (finiteb y = true -> finiteb (ev vs (clhs c)) = true -> finiteb (ev vs (crhs c)) = true -> finiteb (@violation F NF vs c) = true ->
                float_value (@violation F NF vs c) <= Rabs (float_value y) + slack_excess (ckd c) (slack_value sl r) +
                  error_bound (e_ops (full_est c sl)) (e_mag (full_est c sl) r) + error_bound (e_ops (sides_est c)) (e_mag (sides_est c) r))).
  Proof.
    intros Hh Hm E Hcl Hq Hx Has Hr. destruct (row_slack HO st m sp k' q x vs r Hh Hm E Hcl Hq Hx Has Hr) as (q' & Eq & D).
    exists q'. split; [exact Eq|]. intros i c Hic. destruct (D i c Hic) as (H1 & sl & y & H2 & H3 & H4 & _). split; [exact H1|]. exists sl, y. auto.
  Qed.

  (** ** C79 After a solve: how far the recorded point can miss the nonlinear constraints of the model. *)
  Theorem C79_solve (HO : HashOrd) (st : mstate F) solver m m' k' delta eps r c :
    @hist F NF any_op st -> In m (st_models st) -> @solve F NF HO solver m (st_k st) = (m', Returned (inl tt), k') -> 0 <= eps ->
    (forall sp stat s, @std_problem F NF HO m (st_k st) = Ok (sp, k') -> solver (sp_prob sp) = Ok (inl (stat, s)) -> answer_within NF delta eps sp (s_x s)) ->
    reads (md_primals m') r -> In c (md_constraints m) -> ~ affine_sides c ->
    finite_constants (clhs c) -> finite_constants (crhs c) -> safe_quotients NF false (md_primals m') r (clhs c) -> safe_quotients NF false (md_primals m') r (crhs c) ->
    exists sl,
      match sl with None => ckd c = Equal | Some s => ckd c <> Equal /\ In s (map fst (md_primals m')) /\ (st_k st <= nid s)%nat end /\
      let miss := delta + match ckd c with Equal => 0 | _ => eps end + error_bound (e_ops (full_est c sl)) (e_mag (full_est c sl) r) in
      real_violation c r <= miss /\
      (finiteb (ev (md_primals m') (clhs c)) = true -> finiteb (ev (md_primals m') (crhs c)) = true -> finiteb (@violation F NF (md_primals m') c) = true ->
         float_value (@violation F NF (md_primals m') c) <= miss + error_bound (e_ops (sides_est c)) (e_mag (sides_est c) r)).
  Proof.
    intros Hh Hm Es He Hsol Hr Hc Hna Fa Fb Qa Qb.
    destruct (@C33_primals F NF HO st solver m m' k' Hh Hm Es) as (sp & stat & s & Esp & Eso & _ & Hperm & _ & Hval).
    destruct (Hsol sp stat s Esp Eso) as [Hx Hrow Hbox].
    assert (Has : assigns sp (s_x s) (md_primals m')).
    { intros v i Hv. destruct (Hval v i Hv) as (y & Ey & _ & Hg). exists y. split; assumption. }
    destruct (@C67_tightest F NF HO st m sp k' (C67_binary64 fsin fcos) Hh Hm Esp) as (obj & cs & slots & Em & Hp & Htight).
    destruct (F2_in_l _ _ _ (ar_slots _ _ _ _ _ Hp) c Hc) as (slot & Hslot).
    assert (Hj : exists i, In (i, c) (sp_jcons sp)).
    { destruct slot as [v b|i sl|i sl]; [destruct (Hna (proj1 Hslot))|destruct (Hna (proj1 Hslot))|].
      exists i. destruct Hslot as (_ & Hg & _). apply hget_some_in in Hg as (j & Hg & Ej). apply Nat.eqb_eq in Ej. subst j. exact Hg. }
    destruct Hj as (i & Hic).
    assert (Hcl : class_of (sp_prob sp) = ClNlp \/ class_of (sp_prob sp) = ClMinlp).
    { assert (Hno : ~ all_affine m).
      { intros [_ HA]. apply Hna. exact (HA c Hc). }
      destruct (@C28_class F NF HO st m sp k' Hh Hm Esp eq_refl) as (G1 & G2 & _).
      destruct (class_of (sp_prob sp)); auto; exfalso; apply Hno; first [apply (proj1 G2 eq_refl)|apply (proj1 G1 eq_refl)]. }
    destruct (row_slack HO st m sp k' (base_of (sp_prob sp)) (s_x s) (md_primals m') r Hh Hm Esp Hcl (@ev_start F NF _) Hx Has Hr) as (q' & Eq & D).
    destruct (D i c Hic) as (_ & sl & y & Hsl & Hy & Hsays & Hslk). destruct (Hsays Fa Fb Qa Qb) as (_ & T1 & T2).
    destruct (Hrow q' Eq i y Hy) as [Fy By].
    assert (X : slack_excess (ckd c) (slack_value sl r) <= match ckd c with Equal => 0 | _ => eps end).
    { destruct sl as [v|].
      - destruct Hsl as (Hk & Hin & _). destruct (Hslk v eq_refl) as [Hv Hb]. specialize (Hb obj cs Em).
        apply in_map_iff in Hin as ([v' j] & Ev & Hin). cbn [fst] in Ev. subst v'.
        destruct (Hval v j Hin) as (z & Ez & _ & Hg). destruct (Htight v j Hin) as ((u & Eu & _ & Hu & _) & (l & El & _ & Hl & _)).
        destruct (Hbox j z l u Ez El Eu) as ([Fz1 Fz2] & Fl & Fu & B1 & B2).
        destruct (Hr v z Hv Hg) as [_ Erv]. specialize (Erv Fz2).
        assert (Esv : slack_value (Some v) r = float_value z) by (destruct v; try discriminate Hv; cbn [slack_value real_value]; exact Erv).
        rewrite Esv. unfold bounds_with in Hb. unfold slack_excess. destruct (ckd c); [congruence| |].
        + rewrite (ar_uppers _ _ _ _ _ Hp) in Hb. specialize (Hu _ _ Hb eq_refl). apply leb_fin in Hu; [|exact Fu|split; reflexivity].
          change (float_value (@n0 F NF)) with 0 in Hu. unfold Rmax. destruct (Rle_dec 0 (float_value z)); lra.
        + rewrite (ar_lowers _ _ _ _ _ Hp) in Hb. specialize (Hl _ _ Hb eq_refl). apply leb_fin in Hl; [|split; reflexivity|exact Fl].
          change (float_value (@n0 F NF)) with 0 in Hl. unfold Rmax. destruct (Rle_dec 0 (- float_value z)); lra.
      - rewrite Hsl. cbn. rewrite Rabs_R0. lra. }
    exists sl. split.
    { destruct sl as [v|]; [|exact Hsl]. destruct Hsl as (A & B & C). split; [exact A|]. split; [|exact C].
      eapply Permutation_in; [apply Permutation_sym; exact Hperm|exact B]. }
    cbv zeta. split; [specialize (T1 Fy); lra|]. intros Ea Eb Fv. specialize (T2 Fy Ea Eb Fv). lra.
  Qed.
End C79.

(** Minimise x subject to x * x <= 2, and a solver that answers x = 1 with the slack -1. *)
Section Ex79.
  Local Open Scope string_scope.
  #[local] Existing Instance NumF0.
  Definition c79_prog : list (call F) :=
    [CExpr (OVar "x" VarContinuous); CExpr (OMulNN 0 0); CCmpNS 1 LessEqual (flit 2) "disk"; CNewModel; CSetObj 0 Minimise 0; CAddConstrs 0 [0%nat]].
  Definition c79_x : node F := NVar 0 "x" VarContinuous.
  Definition c79_c : constraint F := mk_constraint 3 (NMul 1 c79_x c79_x) LessEqual (NConst 2 (flit 2)) "disk".
  Definition c79_point : list F := [flit (-1); flit 1].
  Definition c79_solver (p : problem F) : res answer := Ok (inl (Solved, mk_sol c79_point [] [flit 0] [flit 0; flit 0] [flit 0; flit 0])).
  Definition c79_r (i : nat) : R := match i with O => float_value (flit 1) | _ => float_value (flit (-1)) end.
  Example C79_example : exists (st : mstate F) m m' k',
    @hist F NumF0 any_op st /\ In m (st_models st) /\ @solve F NumF0 ord_id c79_solver m (st_k st) = (m', Returned (inl tt), k') /\
    (forall sp stat s, @std_problem F NumF0 ord_id m (st_k st) = Ok (sp, k') -> c79_solver (sp_prob sp) = Ok (inl (stat, s)) -> answer_within NumF0 0 0 sp (s_x s)) /\
    reads (md_primals m') c79_r /\ md_constraints m = [c79_c] /\ ~ affine_sides c79_c /\ finite_constants (clhs c79_c) /\ finite_constants (crhs c79_c) /\
    safe_quotients NumF0 false (md_primals m') c79_r (clhs c79_c) /\ safe_quotients NumF0 false (md_primals m') c79_r (crhs c79_c) /\
    finiteb (@violation F NumF0 (md_primals m') c79_c) = true /\ real_violation c79_c c79_r = 0.
  Proof.
    assert (C : match @mrun F NumF0 ord_id c79_prog mstart with
                | Some st => match st_models st with
                  | [m] => md_constraints m = [c79_c] /\
                    match @std_problem F NumF0 ord_id m (st_k st) with
                    | Ok (sp, _) => m_nx (base_of (sp_prob sp)) = 2%nat /\
                        m_l (base_of (sp_prob sp)) = [flit (-100000000); flit (-100000000)] /\ m_u (base_of (sp_prob sp)) = [flit 0; flit 100000000] /\
                        match @minlp_evaluate F (base_of (sp_prob sp)) c79_point with
                        | Ok q' => b_f (m_bufs q') = [flit 0]
                        | Panic _ => False end
                    | Panic _ => False end /\
                    match @solve F NumF0 ord_id c79_solver m (st_k st) with
                    | (m', Returned (inl tt), _) => md_primals m' = [(NVar 20 "_s_j0_" VarContinuous, flit (-1)); (c79_x, flit 1)]
                    | _ => False end
                  | _ => False end
                | None => False end) by (vm_compute; repeat split; reflexivity).
    destruct (@mrun F NumF0 ord_id c79_prog mstart) as [st|] eqn:E; [|destruct C].
    destruct (st_models st) as [|m [|]] eqn:Em; try (destruct C; fail). destruct C as (C0 & C1 & C2).
    destruct (@std_problem F NumF0 ord_id m (st_k st)) as [[sp k']|] eqn:Es; [|destruct C1].
    destruct C1 as (C3 & C4 & C5 & C6).
    destruct (@minlp_evaluate F (base_of (sp_prob sp)) c79_point) as [q'|] eqn:Eq; [|destruct C6].
    destruct (@solve F NumF0 ord_id c79_solver m (st_k st)) as [[m' [[[]|]|]] k2] eqn:Ev; try (destruct C2; fail).
    assert (I0 : forall z, (Z.abs z <= 2 ^ 53)%Z -> finite64 (flit z) /\ float_value (flit z) = IZR z).
    { intros z Hz. destruct (flit_int z Hz) as [F1 V1]. split; [apply finite_fin; exact F1|]. rewrite float_value_fval. exact V1. }
    destruct (I0 0%Z ltac:(cbn; lia)) as [F0 V0]. destruct (I0 1%Z ltac:(cbn; lia)) as [F1 V1]. destruct (I0 (-1)%Z ltac:(cbn; lia)) as [F2 V2]. destruct (I0 2%Z ltac:(cbn; lia)) as [F5 V5].
    destruct (I0 100000000%Z ltac:(cbn; lia)) as [F3 V3]. destruct (I0 (-100000000)%Z ltac:(cbn; lia)) as [F4 V4]. clear I0.
    exists st, m, m', k2.
    split; [eapply (@mrun_hist F NumF0 ord_id c79_prog mstart); [constructor|exact E]|].
    split; [rewrite Em; left; reflexivity|]. split; [exact Ev|]. split.
    { intros sp1 stat s Es1 Eso. rewrite Es in Es1. assert (sp1 = sp) as -> by congruence. injection Eso as _ <-. cbn [s_x]. split.
      - rewrite C3. reflexivity.
      - intros q Eqq i y Hy. rewrite Eq in Eqq. assert (q = q') as -> by congruence. rewrite C6 in Hy.
        destruct i as [|[|i]]; try discriminate Hy. assert (y = flit 0) as -> by (cbn [nth_error] in Hy; congruence). rewrite V0, Rabs_R0. split; [apply F0|lra].
      - intros i y l u Hy Hl Hu. rewrite C4 in Hl. rewrite C5 in Hu. unfold c79_point in Hy.
        destruct i as [|[|i]]; cbn [nth_error] in Hy, Hl, Hu; [| |destruct i; discriminate Hy].
        + assert (y = flit (-1)) as -> by congruence. assert (l = flit (-100000000)) as -> by congruence. assert (u = flit 0) as -> by congruence.
          rewrite V2, V4, V0. split; [exact F2|]. split; [exact F4|]. split; [exact F0|]. lra.
        + assert (y = flit 1) as -> by congruence. assert (l = flit (-100000000)) as -> by congruence. assert (u = flit 100000000) as -> by congruence.
          rewrite V1, V4, V3. split; [exact F1|]. split; [exact F4|]. split; [exact F3|]. lra. }
    rewrite C2. split.
    { intros v x Hv Hg. destruct v as [i c|i s kd|i l|i a|i a b|i a b|i a]; try discriminate Hv. unfold c79_x in Hg. cbn [hget ptr_eq] in Hg.
      destruct (Nat.eqb i 20) eqn:Ei; [|destruct (Nat.eqb i 0) eqn:Ei1; [|discriminate Hg]].
      - apply Nat.eqb_eq in Ei. assert (x = flit (-1)) as -> by congruence. subst i. split; [apply F2|reflexivity].
      - apply Nat.eqb_eq in Ei1. assert (x = flit 1) as -> by congruence. subst i. split; [apply F1|reflexivity]. }
    split; [exact C0|]. split; [intros [Ha _]; vm_compute in Ha; discriminate Ha|].
    split; [|split; [|split; [|split; [|split]]]].
    - intros i v Hs. unfold c79_c, c79_x in Hs. cbn [clhs] in Hs.
      repeat match goal with
      | Hs : sub _ (NVar _ _ _) |- _ => inversion Hs; clear Hs; subst
      | Hs : sub _ (NMul _ _ _) |- _ => inversion Hs; clear Hs; subst
      | Hi : In _ _ |- _ => cbn [arguments In] in Hi
      | Hi : _ \/ _ |- _ => destruct Hi as [<-|Hi]
      | Hi : False |- _ => destruct Hi
      end.
    - intros i v Hs. unfold c79_c in Hs. cbn [crhs] in Hs. inversion Hs as [n|s c n H1 H2]; [exact F5|destruct H1].
    - cbn. auto.
    - exact I.
    - vm_compute. reflexivity.
    - unfold real_violation, c79_c, c79_x. cbn [clhs crhs ckd real_value c79_r]. rewrite V1, V5. unfold Rmax. destruct (Rle_dec 0 (1 * 1 - 2)); lra.
  Qed.
End Ex79.
