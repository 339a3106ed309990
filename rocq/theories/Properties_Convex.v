(** Property C86 for convex models: convexity between the recorded point and another one is enough. *)
From Verif Require Import Base Num Node NodeInd NodeDiff NodeStd Constraint Matrix Problem ModelStd Model
     ExprSpec World Sim MapProofs StdPropProofs EvalProofs GradProofs MatSpec MatrixProofs ProblemProofs PartsProofs BuildProofs BuildMain ModelSpec EvalRun StdFacts
     Api ApiProofs ModelApi StdMain HistProofs OccProofs ConstrEquiv Properties_Constr Properties_Std ModelExample SolveProofs Properties_Solve TextSpec ExactSpec RoundSpec FmtProofs FloatProofs FloatOps RoundOps RoundProofs Properties_Text Properties_Exact Properties_Round
     NoFun RoundCoef CoefSpec CoefProofs Properties_Coef PostProofs HashProofs PolySpec PolyProofs BitSpec BitProofs Properties_Bit DerEstSpec DerEstProofs Properties_DerEst Properties_Full PlaceSpec SlotAny Properties_Place KktSpec KktProofs AffSpec Properties_Aff LagSpec Properties_Lag TolSpec SlackSpec Properties_Slack ConvSpec Properties_Conv ConvexSpec.
From Coq Require Import Reals Lra Lia Classical_Prop Floats.SpecFloat.
From Flocq Require Import Core.
Import RoundSpec.
Local Open Scope R_scope.

Lemma value_ext (n : node F) r r' : (forall i, r i = r' i) -> real_value n r = real_value n r'.
Proof.
  intros He. induction n as [i w|i st kd|i args IH|i a IH|i a b IHa IHb|i a b IHa IHb|i a IH] using node_ind'; cbn [real_value]; try congruence.
  induction args as [|a l IHl]; [reflexivity|]. cbn [fold_right]. rewrite (Forall_inv IH), IHl; [reflexivity|exact (Forall_inv_tail IH)].
Qed.
Lemma segment_0 n r z : real_value n (segment r z 0) = real_value n r.
Proof. apply value_ext. intros i. unfold segment. ring. Qed.
Lemma slope_lin L D D1 D2 a b r z : (forall c, D c = a * D1 c + b * D2 c) -> slope L D r z = a * slope L D1 r z + b * slope L D2 r z.
Proof. intros E. unfold slope. rewrite <- !total_scal, <- total_plus. apply total_ext. intros c _. rewrite E. ring. Qed.
Lemma slope_zero L D r z : (forall c, D c = 0) -> slope L D r z = 0.
Proof. intros E. unfold slope. apply total_zero. intros c _. rewrite E. ring. Qed.
Lemma occurs_arg v (a n : node F) : In a (arguments n) -> occurs v a -> occurs v n.
Proof. intros Hi [H1 H2]. split; [exact H1|]. eapply sub_arg; eassumption. Qed.
(** The derivative along a segment is the slope. *)
Lemma segment_derivative fsin fcos der vs L r z n : NoDup L -> (forall w, occurs w n -> In (nid w) L) -> fine fsin fcos der vs r n ->
  derivable_pt_lim (fun t => real_value n (segment r z t)) 0 (slope L (fun c => dval c n r) r z).
Proof.
  intros Hnd. induction n as [i w|i st kd|i args IH|i a IH|i a b IHa IHb|i a b IHa IHb|i a IH] using node_ind'; intros Ho Ha; cbn [real_value].
  - rewrite slope_zero by reflexivity. apply (derivable_pt_lim_const (float_value w)).
  - assert (Hin : In i L) by (apply (Ho (NVar i st kd)); split; [reflexivity|constructor]).
    unfold slope. rewrite (total_one (fun c => dval c (NVar i st kd) r * (z c - r c)) L i Hnd Hin).
    2: { intros c _ Hc. cbn [dval]. rewrite (proj2 (Nat.eqb_neq i c)) by congruence. ring. }
    cbn [dval]. rewrite Nat.eqb_refl. unfold segment.
    replace (1 * (z i - r i)) with (0 + (1 * (z i - r i) + 0 * 0)) by ring.
    apply (derivable_pt_lim_plus (fun _ => r i) (fun t => t * (z i - r i))); [apply (derivable_pt_lim_const (r i))|].
    apply (derivable_pt_lim_mult (fun t => t) (fun _ => z i - r i)); [apply derivable_pt_lim_id|apply (derivable_pt_lim_const (z i - r i))].
  - apply fine_args in Ha. assert (Ho' : forall a, In a args -> forall w, occurs w a -> In (nid w) L) by (intros a Hi w Hw; apply Ho; eapply occurs_arg; [exact Hi|exact Hw]).
    clear Ho. induction args as [|a l IHl]; [rewrite slope_zero by reflexivity; apply (derivable_pt_lim_const 0)|]. cbn [fold_right].
    rewrite (slope_lin L _ (fun c => dval c a r) (fun c => dval c (NAdd i l) r) 1 1) by (intros c; cbn [dval fold_right]; ring). rewrite !Rmult_1_l.
    apply (derivable_pt_lim_plus (fun t => real_value a (segment r z t)) (fun t => fold_right (fun a s => real_value a (segment r z t) + s) 0 l)).
    + apply (Forall_inv IH); [exact (Ho' a (or_introl eq_refl))|exact (Forall_inv Ha)].
    + apply IHl; [exact (Forall_inv_tail IH)|exact (Forall_inv_tail Ha)|]. intros x Hx. apply Ho'. right. exact Hx.
  - destruct Ha as (_ & _ & Ha). assert (Hoa : forall w, occurs w a -> In (nid w) L) by (intros w Hw; apply Ho; eapply occurs_arg; [left; reflexivity|exact Hw]).
    pose proof (derivable_pt_lim_comp (fun t => real_value a (segment r z t)) cos 0 _ _ (IH Hoa Ha) (derivable_pt_lim_cos _)) as Hm.
    cbn beta in Hm. rewrite segment_0 in Hm. rewrite (slope_lin L _ (fun c => dval c a r) (fun _ => 0) (- sin (real_value a r)) 0) by (intros c; cbn [dval]; ring).
    rewrite Rmult_0_l, Rplus_0_r. exact Hm.
  - assert (Hoa : forall w, occurs w a -> In (nid w) L) by (intros w Hw; apply Ho; eapply occurs_arg; [left; reflexivity|exact Hw]).
    assert (Hob : forall w, occurs w b -> In (nid w) L) by (intros w Hw; apply Ho; eapply occurs_arg; [right; left; reflexivity|exact Hw]).
    destruct (const_or b) as [Cb|(j & v & ->)].
    + rewrite fine_div in Ha by exact Cb. destruct Ha as (Ha & Hb & (_ & Hn & _) & _). rewrite est_value in Hn.
      pose proof (derivable_pt_lim_div (fun t => real_value a (segment r z t)) (fun t => real_value b (segment r z t)) 0 _ _ (IHa Hoa Ha) (IHb Hob Hb)) as Hm.
      cbn beta in Hm. rewrite !segment_0 in Hm. specialize (Hm Hn).
      rewrite (slope_lin L _ (fun c => dval c a r) (fun c => dval c b r) (1 / real_value b r) (- real_value a r / (real_value b r * real_value b r))) by (intros c; rewrite dval_div by exact Cb; ring).
      match type of Hm with derivable_pt_lim _ _ ?l => match goal with |- derivable_pt_lim _ _ ?l' => replace l' with l by (unfold Rsqr; field; exact Hn) end end.
      exact Hm.
    + destruct Ha as [Ha _]. cbn [real_value]. rewrite (slope_lin L _ (fun c => dval c a r) (fun _ => 0) (/ float_value v) 0) by (intros c; cbn [dval]; unfold Rdiv; ring).
      rewrite Rmult_0_l, Rplus_0_r.
      eapply derivable_pt_lim_ext; [|apply (derivable_pt_lim_scal (fun t => real_value a (segment r z t)) (/ float_value v) 0); apply IHa; [exact Hoa|exact Ha]].
      intros t. unfold mult_real_fct, Rdiv. ring.
  - assert (Hoa : forall w, occurs w a -> In (nid w) L) by (intros w Hw; apply Ho; eapply occurs_arg; [left; reflexivity|exact Hw]).
    assert (Hob : forall w, occurs w b -> In (nid w) L) by (intros w Hw; apply Ho; eapply occurs_arg; [right; left; reflexivity|exact Hw]).
    destruct Ha as [Ha Hb]. pose proof (derivable_pt_lim_mult (fun t => real_value a (segment r z t)) (fun t => real_value b (segment r z t)) 0 _ _ (IHa Hoa Ha) (IHb Hob Hb)) as Hm.
    cbn beta in Hm. rewrite !segment_0 in Hm.
    rewrite (slope_lin L _ (fun c => dval c a r) (fun c => dval c b r) (real_value b r) (real_value a r)) by (intros c; cbn [dval]; ring).
    rewrite (Rmult_comm (real_value b r)). exact Hm.
  - destruct Ha as (_ & _ & Ha). assert (Hoa : forall w, occurs w a -> In (nid w) L) by (intros w Hw; apply Ho; eapply occurs_arg; [left; reflexivity|exact Hw]).
    pose proof (derivable_pt_lim_comp (fun t => real_value a (segment r z t)) sin 0 _ _ (IH Hoa Ha) (derivable_pt_lim_sin _)) as Hm.
    cbn beta in Hm. rewrite segment_0 in Hm. rewrite (slope_lin L _ (fun c => dval c a r) (fun _ => 0) (cos (real_value a r)) 0) by (intros c; cbn [dval]; ring).
    rewrite Rmult_0_l, Rplus_0_r. exact Hm.
Qed.
(** A chord lies above the tangent. *)
Lemma chord_tangent (f : R -> R) a b l : derivable_pt_lim f 0 l -> f 0 = a -> (forall t, 0 <= t <= 1 -> f t <= (1 - t) * a + t * b) -> a + l <= b.
Proof.
  intros Hd H0 Hc. destruct (Rle_dec (a + l) b) as [H|H]; [exact H|exfalso].
  destruct (Hd (l - (b - a)) ltac:(lra)) as [del Hdel]. pose proof (cond_pos del) as Hp.
  set (h := Rmin (del / 2) 1). assert (Hh : 0 < h <= 1 /\ h < del).
  { unfold h. pose proof (Rmin_l (del / 2) 1). pose proof (Rmin_r (del / 2) 1). split; [split; [apply Rmin_glb_lt; lra|lra]|lra]. }
  specialize (Hdel h ltac:(lra) ltac:(rewrite Rabs_pos_eq; lra)). rewrite Rplus_0_l, H0 in Hdel.
  pose proof (Hc h ltac:(lra)) as Hch. assert (G : (f h - a) / h <= b - a).
  { apply (Rmult_le_reg_r h); [lra|]. unfold Rdiv. rewrite Rmult_assoc, Rinv_l by lra. lra. }
  apply Rabs_def2 in Hdel. lra.
Qed.
Lemma convex_tangent fsin fcos der vs L r z n : NoDup L -> (forall w, occurs w n -> In (nid w) L) -> fine fsin fcos der vs r n ->
  convex_between (real_value n) r z -> real_value n r + slope L (fun c => dval c n r) r z <= real_value n z.
Proof.
  intros Hnd Ho Hf Hc. apply (chord_tangent (fun t => real_value n (segment r z t))); [exact (segment_derivative fsin fcos der vs L r z n Hnd Ho Hf)|apply segment_0|exact Hc].
Qed.
Lemma concave_tangent fsin fcos der vs L r z n : NoDup L -> (forall w, occurs w n -> In (nid w) L) -> fine fsin fcos der vs r n ->
  convex_between (fun x => - real_value n x) r z -> real_value n z <= real_value n r + slope L (fun c => dval c n r) r z.
Proof.
  intros Hnd Ho Hf Hc. enough (- real_value n r + - slope L (fun c => dval c n r) r z <= - real_value n z) by lra.
  apply (chord_tangent (fun t => - real_value n (segment r z t))); [|rewrite segment_0; reflexivity|exact Hc].
  apply (derivable_pt_lim_opp (fun t => real_value n (segment r z t))). exact (segment_derivative fsin fcos der vs L r z n Hnd Ho Hf).
Qed.

Section C86.
  Variables fsin fcos : F -> F.
  Notation NF := (NumF fsin fcos).
  Local Instance num_f : Num F := NF.
  Hypotheses (Hsin : accurate fsin sin) (Hcos : accurate fcos cos).

  (** ** C86, convex models: it is enough that the (minimised) objective and the constraints are
      convex between the recorded point and the other one. *)
  Theorem C86_convex (HO : HashOrd) (st : mstate F) solver m m' k' :
    @hist F NF any_op st -> In m (st_models st) -> @solve F NF HO solver m (st_k st) = (m', Returned (inl tt), k') -> NoDup (map cid (md_constraints m)) ->
    exists sp stat s, @std_problem F NF HO m (st_k st) = Ok (sp, k') /\ solver (sp_prob sp) = Ok (inl (stat, s)) /\
    forall eps tau eta delta r, near_stationary NF eps tau sp s -> near_complementary eta delta sp s -> 0 <= tau -> 0 <= eta -> 0 <= delta -> reads (md_primals m') r ->
      exists e ds, @minimises F NF (md_objective m) e /\ Forall2 (fun c d => gives (@sub_nn F NF (clhs c) (crhs c)) d) (md_constraints m) ds /\
        (Forall finite_constants (e :: ds) ->
         Forall (fun d => p_affine (@std_properties F NF d) = false -> safe_quotients NF true (md_primals m') r d) (e :: ds) ->
         forall L, NoDup L -> (forall c, In c L <-> exists v, model_var m v /\ nid v = c) ->
         exists g Ds, derivatives_at m (real_value e) g r /\ Forall2 (fun d D => derivatives_at m (real_value d) D r) ds Ds /\
         forall z, convex_between (real_value e) r z ->
           Forall2 (fun c d => convex_kind (ckd c) (real_value d) r z /\ to_zero (ckd c) (real_value d z)) (md_constraints m) ds ->
           real_value e r <= real_value e z
             + total (map (fun c => column_error NF eps tau m' (md_constraints m) e ds Ds r c * Rabs (z c - r c)) L)
             + total (map (gap_share eta L r z m') (combine (md_constraints m) (combine ds Ds)))).
  Proof.
    intros Hh Hm Es Hnd. destruct (C86_optimal fsin fcos Hsin Hcos HO st solver m m' k' Hh Hm Es Hnd) as (sp & stat & s & Esp & Eso & H86).
    exists sp, stat, s. split; [exact Esp|]. split; [exact Eso|]. intros eps tau eta delta r Hns Hnc Htau Heta Hdel Hr.
    destruct (H86 eps tau eta delta r Hns Hnc Htau Heta Hdel Hr) as (e & ds & He & Hds & Hopt). exists e, ds. split; [exact He|]. split; [exact Hds|].
    intros Hfc Hsq L HnL HL.
    assert (Hfine : forall d, @ExprSpec.canonical F NF d -> finite_constants d -> (p_affine (@std_properties F NF d) = false -> safe_quotients NF true (md_primals m') r d) -> fine fsin fcos true (md_primals m') r d).
    { intros d Hc Hf Hs. destruct (p_affine (@std_properties F NF d)) eqn:Ha; [apply arith_fine; exact (proj1 (affine_arith fsin fcos d Hc Hf Ha))|].
      apply safe_fine; auto. }
    pose proof (min_canonical fsin fcos st m e Hh Hm He) as Hce.
    inversion Hfc as [|? ? Fe Fd]; subst. inversion Hsq as [|? ? Se Sd]; subst. pose proof (Hfine e Hce Fe Se) as Hfe.
    assert (Hcd : Forall2 (fun c d => fine fsin fcos true (md_primals m') r d /\ forall w, occurs w d -> In (nid w) L) (md_constraints m) ds).
    { assert (Hl : Forall2 (fun c d => gives (@sub_nn F NF (clhs c) (crhs c)) d /\ (finite_constants d /\ (p_affine (@std_properties F NF d) = false -> safe_quotients NF true (md_primals m') r d))) (md_constraints m) ds).
      { clear -Hds Fd Sd. induction Hds as [|c d cs ds H1 _ IH]; constructor; inversion Fd; inversion Sd; subst; auto. }
      revert Hl. apply F2_in. intros c d Hc (H1 & H2 & H3). split; [exact (Hfine d (diff_canonical fsin fcos st m c d Hh Hm Hc H1) H2 H3)|].
      intros w Hw. apply HL. exists w. split; [exact (diff_vars fsin fcos m c d Hc H1 w Hw)|reflexivity]. }
    assert (Hder : forall d, fine fsin fcos true (md_primals m') r d -> derivatives_at m (real_value d) (fun c => dval c d r) r).
    { intros d Hf v Hv. exact (dval_derivative fsin fcos true (md_primals m') (nid v) d r Hf). }
    set (Ds := map (fun d c => dval c d r) ds).
    assert (HD : Forall2 (fun d D => derivatives_at m (real_value d) D r) ds Ds).
    { unfold Ds. clear -Hcd Hder. induction Hcd as [|c d cs ds [H1 _] _ IH]; cbn [map]; constructor; auto. }
    exists (fun c => dval c e r), Ds. split; [exact (Hder e Hfe)|]. split; [exact HD|]. intros z Hez Hz.
    apply (Hopt Hfc Hsq L (fun c => dval c e r) Ds z); [exact HL|exact (Hder e Hfe)|exact HD| |].
    - refine (convex_tangent fsin fcos true (md_primals m') L r z e HnL _ Hfe Hez).
      intros w Hw. apply HL. exists w. split; [exact (min_vars fsin fcos m e He w Hw)|reflexivity].
    - clear -Hcd Hz HnL. unfold Ds. revert Hz. induction Hcd as [|c d cs ds [H1 H2] _ IH]; intros Hz; cbn [map combine]; constructor; inversion Hz as [|? ? ? ? [K1 K2] K3]; subst; [|auto].
      cbn [fst snd]. split; [|exact K2].
      unfold on_side, convex_kind in *. destruct (ckd c).
      + destruct K1 as [K4 K5]. apply Rle_antisym; [exact (concave_tangent _ _ _ _ L r z d HnL H2 H1 K5)|exact (convex_tangent _ _ _ _ L r z d HnL H2 H1 K4)].
      + exact (convex_tangent _ _ _ _ L r z d HnL H2 H1 K1).
      + exact (concave_tangent _ _ _ _ L r z d HnL H2 H1 K1).
  Qed.
End C86.

(** ** A non-trivial case: the model of [C86_example] and the point it compares with meet the
    convexity asked here (the square is not affine). *)
Section ExConvex.
  Notation NM := (NumF (machine sin) (machine cos)).
  Example C86_convex_example :
    convex_between (real_value c86_obj) c86_r c86_z /\
    forall ds, Forall2 (fun c d => gives (@sub_nn F NM (clhs c) (crhs c)) d) c86_cons ds ->
      Forall2 (fun c d => convex_kind (ckd c) (real_value d) c86_r c86_z /\ to_zero (ckd c) (real_value d c86_z)) c86_cons ds.
  Proof.
    assert (V : forall z, (Z.abs z <= 2 ^ 53)%Z -> float_value (flit z) = IZR z).
    { intros z Hz. destruct (flit_int z Hz) as [_ V1]. rewrite float_value_fval. exact V1. }
    pose proof (V 2%Z ltac:(cbn; lia)) as V2. pose proof (V 3%Z ltac:(cbn; lia)) as V3. pose proof (V (-2)%Z ltac:(cbn; lia)) as V5.
    pose proof (V (-4)%Z ltac:(cbn; lia)) as V8. pose proof (V (-9)%Z ltac:(cbn; lia)) as V11. clear V.
    assert (P : forall t, 0 <= t <= 1 -> 0 <= t * (1 - t)) by (intros t Ht; apply Rmult_le_pos; lra).
    split.
    { intros t Ht. specialize (P t Ht). unfold segment, c86_obj, c74_x, c74_y. cbn [real_value fold_right c86_r c86_z]. rewrite ?V2, ?V3. lra. }
    intros ds Hds. unfold c86_cons in *.
    inversion Hds as [|? d0 ? ds0 (k0 & k1 & E0) Hd0]; subst. clear Hds. inversion Hd0 as [|? d1 ? ds1 (k2 & k3 & E1) Hd1]; subst. clear Hd0.
    inversion Hd1 as [|? d2 ? ds2 (k4 & k5 & E2) Hd2]; subst. clear Hd1. inversion Hd2; subst. clear Hd2. cbn [clhs crhs] in E0, E1, E2.
    assert (X0 : d0 = NAdd (Datatypes.S (Datatypes.S k0)) [c74_x; NConst (Datatypes.S k0) (flit (-2))]) by (vm_compute in E0; injection E0 as <- _; vm_compute; reflexivity).
    assert (X1 : d1 = NAdd (Datatypes.S (Datatypes.S k2)) [c74_x; c74_y; NConst (Datatypes.S k2) (flit (-4))]) by (vm_compute in E1; injection E1 as <- _; vm_compute; reflexivity).
    assert (X2 : d2 = NAdd (Datatypes.S (Datatypes.S k4)) [NMul 2 c74_x c74_x; NConst (Datatypes.S k4) (flit (-9))]) by (vm_compute in E2; injection E2 as <- _; vm_compute; reflexivity).
    rewrite X0, X1, X2. clear E0 E1 E2 X0 X1 X2 d0 d1 d2.
    apply Forall2_cons; [|apply Forall2_cons; [|apply Forall2_cons; [|apply Forall2_nil]]]; cbn [ckd convex_kind to_zero]; unfold convex_between, segment, c74_x, c74_y;
      cbn [real_value fold_right c86_r c86_z]; rewrite ?V2, ?V3, ?V5, ?V8, ?V11; repeat split; try (intros t Ht; specialize (P t Ht)); lra.
  Qed.
End ExConvex.
