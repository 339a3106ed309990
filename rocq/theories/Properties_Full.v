(** Property C76: rounding errors of all expressions and of their derivatives. *)
From Verif Require Import Base Num Node NodeInd NodeDiff NodeStd Constraint Matrix Problem ModelStd Model
     ExprSpec World MapProofs EvalProofs PathProofs DerivProofs DiffProofs PanicProofs GradProofs
     MatSpec MatrixProofs ProblemProofs ModelSpec Api ApiProofs ModelApi HistProofs StdMain EvalRun Properties_Expr Properties_Constr Properties_Std ModelExample
     TextSpec ExactSpec RoundSpec PolySpec FmtProofs FloatProofs FloatOps RoundOps RoundProofs Properties_Text Properties_Exact Properties_Round
     BitSpec BitProofs Properties_Bit ArithKind DerEstSpec DerEstProofs Properties_DerEst.
From Coq Require Import Reals Lra Lia Floats.SpecFloat.
From Flocq Require Import Core.
Import RoundSpec.
Local Open Scope R_scope.

(** ** C76 Sines and cosines that are accurate enough exist. *)
Lemma RN_scaled z : (Z.abs z <= 2 ^ 53)%Z -> RN (IZR z / 2 ^ 53) = IZR z / 2 ^ 53.
Proof.
  intros Hz. assert (E : IZR z / 2 ^ 53 = F2R (Float radix2 z (-53))).
  { unfold F2R. cbn [Fnum Fexp]. rewrite bpow2. change (-53)%Z with (- Z.of_nat 53)%Z. rewrite powerRZ_neg', <- pow_powerRZ. reflexivity. }
  destruct (Z.eq_dec (Z.abs z) (2 ^ 53)) as [Ez|Hn].
  - assert (H53 : IZR (2 ^ 53) / 2 ^ 53 = 1).
    { replace (IZR (2 ^ 53)) with (2 ^ 53) by exact (pow_IZR 2 53). unfold Rdiv. apply Rinv_r. apply pow_nonzero. lra. }
    destruct (Z.abs_eq_or_opp z) as [E'|E']; rewrite E' in Ez.
    + rewrite Ez, H53. exact (RN_int 1 ltac:(cbn; lia)).
    + assert (z = - 2 ^ 53)%Z as -> by lia. rewrite opp_IZR, Ropp_div, H53. exact (RN_int (-1) ltac:(cbn; lia)).
  - apply round_generic; [apply valid_rnd_N|]. rewrite E. apply (generic_format_FLT radix2 (-1074) 53). exists (Float radix2 z (-53)); [reflexivity| |]; cbn [Fnum Fexp]; [change (Zpower radix2 53) with (2 ^ 53)%Z; lia|discriminate].
Qed.
Definition down (x : R) : F := SFdiv 53 1024 (flit (Zfloor (x * 2 ^ 53))) (flit (2 ^ 53)).
Lemma down_ok x : Rabs x <= 1 -> finite64 (down x) /\ Rabs (float_value (down x) - x) <= unit_roundoff.
Proof.
  intros Hx. set (z := Zfloor (x * 2 ^ 53)). assert (P53 : 0 < 2 ^ 53) by (apply pow_lt; lra).
  assert (I53 : IZR (2 ^ 53) = 2 ^ 53) by (symmetry; exact (pow_IZR 2 53)).
  pose proof (Zfloor_lb (x * 2 ^ 53)) as Lb. pose proof (Zfloor_ub (x * 2 ^ 53)) as Ub. fold z in Lb, Ub.
  assert (Hx' : -1 <= x <= 1) by (unfold Rabs in Hx; destruct (Rcase_abs x); lra).
  assert (Hz : (Z.abs z <= 2 ^ 53)%Z).
  { apply Z.abs_le. split.
    - enough (- 2 ^ 53 - 1 < z)%Z by lia. apply lt_IZR. rewrite minus_IZR, opp_IZR, I53. nra.
    - apply le_IZR. rewrite I53. nra. }
  destruct (flit_int z Hz) as [F1 V1]. destruct (flit_int (2 ^ 53) ltac:(rewrite Z.abs_eq; lia)) as [F2 V2]. rewrite I53 in V2.
  pose proof (RN_scaled z Hz) as Er.
  assert (Ab : Rabs (IZR z / 2 ^ 53) <= 1).
  { unfold Rdiv. rewrite Rabs_mult, (Rabs_right (/ 2 ^ 53)) by (apply Rle_ge; left; apply Rinv_0_lt_compat; exact P53). apply Rmult_le_reg_r with (2 ^ 53); [exact P53|].
    rewrite Rmult_assoc, Rinv_l, Rmult_1_r, Rmult_1_l by lra. rewrite <- abs_IZR, <- I53. apply IZR_le. exact Hz. }
  destruct (fdiv_fin _ _ F1 F2) as [F3 V3]; [rewrite V2; lra|unfold in_f64; rewrite V1, V2, Er; eapply Rle_lt_trans; [exact Ab|]; apply (bpow_lt radix2 0 1024); lia|].
  rewrite V1, V2, Er in V3. fold (down x) in F3, V3 |- *. split; [apply finite_fin; exact F3|]. rewrite float_value_fval.
  change (SFdiv 53 1024 (flit z) (flit (2 ^ 53))) with (down x) in *. rewrite V3. unfold unit_roundoff.
  replace (IZR z / 2 ^ 53 - x) with ((IZR z - x * 2 ^ 53) * / 2 ^ 53) by (field; lra). rewrite Rabs_mult, (Rabs_right (/ 2 ^ 53)) by (apply Rle_ge; left; apply Rinv_0_lt_compat; exact P53).
  rewrite <- (Rmult_1_l (/ 2 ^ 53)) at 2. apply Rmult_le_compat_r; [left; apply Rinv_0_lt_compat; exact P53|]. apply Rabs_le. lra.
Qed.
Definition machine (f : R -> R) (x : F) : F := if finiteb x then down (f (float_value x)) else S754_nan.
Theorem C76_accurate : accurate (machine sin) sin /\ accurate (machine cos) cos.
Proof.
  assert (G : forall f, (forall x, Rabs (f x) <= 1) -> accurate (machine f) f).
  { intros f Hf x Hx. unfold machine. destruct (finiteb x) eqn:E; [|split; [reflexivity|discriminate]].
    destruct (down_ok _ (Hf (float_value x))) as [[H1 H2] H3]. split; [exact H1|]. intros _. split; [reflexivity|exact H3]. }
  split; apply G; intros x; apply Rabs_le; [apply SIN_bound|apply COS_bound].
Qed.

Section C76.
  Variables fsin fcos : F -> F.
  Notation NF := (NumF fsin fcos).
  Local Instance num_f : Num F := NF.
  Notation ev vs n := (@evaluate F NF vs n).
  Hypothesis Hsin : accurate fsin sin.
  Hypothesis Hcos : accurate fcos cos.

  (** ** C76 Evaluating any expression, and its derivative, where the denominators are safe. *)
  Theorem C76_value k pool n vs r :
    @reach F NF any_op k pool -> In n pool -> finite_constants n -> reads vs r -> safe_quotients NF false vs r n ->
    near (ev vs n) (real_value n r) (est_of n) r.
  Proof.
    intros Hp Hn Hf Hr Hq. apply good_near. apply (built_value fsin fcos vs r n false); [exact Hr|exact (reach_built fsin fcos _ _ _ Hp Hn)|apply safe_fine; assumption].
  Qed.
  Theorem C76_derivative (HO : HashOrd) k pool n v k1 d k2 vs r :
    @reach F NF any_op k pool -> In n pool -> finite_constants n -> @derivative F NF HO n v k1 = Ok (d, k2) -> reads vs r -> safe_quotients NF true vs r n ->
    exists D, cell_derivative (real_value n) (nid v) r D /\ near (ev vs d) D (derivative_est (nid v) n) r.
  Proof.
    intros Hp Hn Hf E Hr Hq.
    assert (Hv : is_var v = true) by (destruct (is_var v) eqn:Hv; [reflexivity|]; rewrite derivative_nonvar in E by exact Hv; discriminate E).
    rewrite derivative_eq in E by exact Hv.
    exact (built_derivative fsin fcos _ _ _ _ _ _ _ Hr (reach_built fsin fcos _ _ _ Hp Hn) (safe_fine fsin fcos true vs r n Hsin Hcos Hf Hq) Hv E).
  Qed.
  (** ** C76 What evaluating a problem leaves for the solver. *)
  Theorem C76_model (HO : HashOrd) (st : mstate F) m sp k' q x vs r :
    @hist F NF any_op st -> In m (st_models st) -> @std_problem F NF HO m (st_k st) = Ok (sp, k') ->
    class_of (sp_prob sp) = ClNlp \/ class_of (sp_prob sp) = ClMinlp ->
    @evolves F NF (base_of (sp_prob sp)) q -> length x = m_nx (base_of (sp_prob sp)) -> assigns sp x vs -> reads vs r ->
    exists q', @minlp_evaluate F q x = Ok q' /\
      (exists e, @minimises F NF (md_objective m) e /\
        (finite_constants e -> safe_quotients NF false vs r e -> near (b_phi (m_bufs q')) (real_value e r) (est_of e) r) /\
        (finite_constants e -> safe_quotients NF true vs r e -> p_affine (@std_properties F NF e) = false -> forall v i, In (v, i) (sp_var2index sp) -> occurs v e ->
             exists y D, nth_error (b_gphi (m_bufs q')) i = Some y /\ cell_derivative (real_value e) (nid v) r D /\ near y D (derivative_est (nid v) e) r)) /\
      (forall i c, In (i, c) (sp_jcons sp) -> In c (md_constraints m) /\
        exists sl d y, own_slack (st_k st) sp c sl /\ gives (@sub_nn F NF (clhs c) (crhs c)) d /\ nth_error (b_f (m_bufs q')) i = Some y /\
          (finite_constants d -> safe_quotients NF false vs r d -> near y (row_value d sl r) (row_est d sl) r) /\
          (finite_constants d -> safe_quotients NF true vs r d -> forall v j, In (v, j) (sp_var2index sp) -> occurs v d ->
               exists z D, at_pos (b_j (m_bufs q')) i j = [z] /\ cell_derivative (real_value d) (nid v) r D /\ near z D (derivative_est (nid v) d) r)).
  Proof.
    intros Hh Hm E Hcl Hq Hx Has Hr.
    destruct (model_near fsin fcos HO st m sp k' q x vs r Hh Hm E Hcl Hq Hx Has Hr) as (q' & Eq & (e & He & H1 & H2) & H3).
    exists q'. split; [exact Eq|]. split.
    - exists e. split; [exact He|]. split; intros Hf Hs; [apply H1|apply H2]; apply safe_fine; assumption.
    - intros i c Hic. destruct (H3 i c Hic) as (Hc & sl & d & y & G1 & G2 & G3 & G4 & G5). split; [exact Hc|]. exists sl, d, y.
      split; [exact G1|]. split; [exact G2|]. split; [exact G3|]. split; intros Hf Hs; [apply G4|apply G5]; apply safe_fine; assumption.
  Qed.
End C76.

(** sin x * (y / x) and its derivative by x, at x = 1 and y = 3. *)
Section Ex76.
  Local Open Scope string_scope.
  Notation NM := (NumF (machine sin) (machine cos)).
  Definition c76_ops : list (op F) := [OVar "x" VarContinuous; OVar "y" VarContinuous; OSin 0; ODivNN 1 0; OMulNN 2 3].
  Definition c76_expr : node F := NMul 4 (NSin 2 c74_x) (NDiv 3 c74_y c74_x).
  Definition c76_vals : vals F := [(c74_x, flit 1); (c74_y, flit 3)].
  Definition c76_r (i : nat) : R := match i with O => float_value (flit 1) | _ => float_value (flit 3) end.
  Lemma small_bound : 2 * error_bound 1 (1 * 1 + tiny) <= 1.
  Proof.
    unfold error_bound. assert (Hu : unit_roundoff <= / 4) by (unfold unit_roundoff; apply Rinv_le_contravar; [lra|]; replace 4 with (2 ^ 2) by ring; apply Rle_pow; [lra|lia]).
    assert (Ht : tiny <= 1) by (unfold tiny; apply Rle_trans with (/ 1); [apply Rinv_le_contravar; [lra|apply pow_R1_Rle; lra]|right; apply Rinv_1]).
    pose proof u_pos. pose proof tiny_pos. rewrite pow_1. replace (1 + unit_roundoff - 1) with unit_roundoff by ring. nra.
  Qed.
  Example C76_example : exists k pool d k2,
    accurate (machine sin) sin /\ accurate (machine cos) cos /\
    @reach F NM any_op k pool /\ In c76_expr pool /\ finite_constants c76_expr /\ @derivative F NM ord_id c76_expr c74_x k = Ok (d, k2) /\ reads c76_vals c76_r /\
    safe_quotients NM true c76_vals c76_r c76_expr /\ e_ops (derivative_est 0 c76_expr) = 11%nat.
  Proof.
    assert (C : match @run F NM ord_id c76_ops 0 [] with
                | Ok (k, pool) => nth_error pool 4 = Some c76_expr /\
                    match @derivative F NM ord_id c76_expr c74_x k with
                    | Ok _ => True
                    | Panic _ => False end
                | Panic _ => False end) by (split; [reflexivity|exact I]).
    destruct (@run F NM ord_id c76_ops 0 []) as [[k pool]|] eqn:E; [|destruct C]. destruct C as [C1 C2].
    destruct (@derivative F NM ord_id c76_expr c74_x k) as [[d k2]|] eqn:Ed; [|destruct C2].
    exists k, pool, d, k2. destruct C76_accurate as [A1 A2]. split; [exact A1|]. split; [exact A2|].
    split; [eapply (@run_reach F NM ord_id c76_ops 0 []); [constructor|exact E]|]. split; [eapply nth_error_In; exact C1|].
    split.
    { intros i v Hs. unfold c76_expr, c74_x, c74_y in Hs.
      repeat match goal with
      | Hs : sub _ (NVar _ _ _) |- _ => inversion Hs; clear Hs; subst
      | Hs : sub _ (NMul _ _ _) |- _ => inversion Hs; clear Hs; subst
      | Hs : sub _ (NDiv _ _ _) |- _ => inversion Hs; clear Hs; subst
      | Hs : sub _ (NSin _ _) |- _ => inversion Hs; clear Hs; subst
      | Hi : In _ _ |- _ => cbn [arguments In] in Hi
      | Hi : _ \/ _ |- _ => destruct Hi as [<-|Hi]
      | Hi : False |- _ => destruct Hi
      end. }
    split; [exact Ed|]. split.
    { intros v x Hv Hg. destruct v as [i c|i s kd|i l|i a|i a b|i a b|i a]; try discriminate Hv. unfold c76_vals, c74_x, c74_y in Hg. cbn [hget ptr_eq] in Hg.
      destruct (Nat.eqb i 0) eqn:Ei; [|destruct (Nat.eqb i 1) eqn:Ei1; [|discriminate Hg]].
      - apply Nat.eqb_eq in Ei. assert (Ex : x = flit 1) by congruence. rewrite Ex, Ei. split; [vm_compute; reflexivity|reflexivity].
      - apply Nat.eqb_eq in Ei1. assert (Ex : x = flit 3) by congruence. rewrite Ex, Ei1. split; [vm_compute; reflexivity|reflexivity]. }
    assert (V1 : float_value (flit 1) = 1) by (rewrite float_value_fval; exact (proj2 (flit_int 1 ltac:(cbn; lia)))).
    split; [|reflexivity].
    split; [exact I|]. split; [exact I|]. split; [exact I|]. split.
    - split; [vm_compute; reflexivity|]. cbn [est_of c74_x e_val e_ops e_mag c76_r]. rewrite V1. split; [lra|]. unfold error_bound. rewrite pow_O, Rabs_R1. lra.
    - intros _. split; [discriminate|]. split; [vm_compute; reflexivity|]. cbn [est_of c74_x e_mul e_val e_ops e_mag c76_r Nat.add]. rewrite V1, !Rabs_R1.
      split; [lra|]. rewrite Rmult_1_r. rewrite Rabs_R1. pose proof small_bound as B. rewrite Rmult_1_r in B. replace (INR (1 * 1) * tiny) with tiny by (cbn; ring). exact B.
  Qed.
End Ex76.
