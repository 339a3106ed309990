(** Property C75: rounding errors of derivatives. *)
From Verif Require Import Base Num Node NodeInd NodeDiff NodeStd Constraint Matrix Problem ModelStd Model
     ExprSpec World MapProofs EvalProofs PathProofs DerivProofs DiffProofs PanicProofs GradProofs
     MatSpec MatrixProofs ProblemProofs ModelSpec Api ApiProofs ModelApi HistProofs StdMain EvalRun Properties_Expr Properties_Constr Properties_Std ModelExample
     TextSpec ExactSpec RoundSpec PolySpec FmtProofs FloatProofs FloatOps RoundOps RoundProofs Properties_Text Properties_Exact Properties_Round
     BitSpec BitProofs Properties_Bit ArithKind DerEstSpec DerEstProofs.
From Coq Require Import Reals Lra Lia Floats.SpecFloat.
Import RoundSpec.
Local Open Scope R_scope.

(** ** C75 The operators, but those of quotients by expressions, of sines and of cosines, build
    expressions the bounds are about, as long as no folded constant overflows. *)
Lemma kind_arith n : akind n = true -> finite_constants n -> arith n.
Proof.
  induction n as [i w|i st kd|i args IH|i a IH|i a b IHa IHb|i a b IHa IHb|i a IH] using node_ind'; intros Hk Hf; try discriminate Hk; cbn [akind] in Hk.
  - apply (Hf i). apply sub_refl.
  - exact I.
  - apply arith_args. rewrite forallb_forall in Hk. rewrite Forall_forall in *. intros a Ha. apply IH; auto.
    intros j v Hs. apply (Hf j). eapply sub_arg; [exact Ha|exact Hs].
  - destruct b as [j v| | | | | | ]; try discriminate Hk. split.
    + apply IHa; [exact Hk|]. intros j' v' Hs. apply (Hf j'). eapply sub_arg; [left; reflexivity|exact Hs].
    + apply (Hf j). eapply sub_arg; [right; left; reflexivity|apply sub_refl].
  - apply andb_true_iff in Hk as [Ka Kb]. split; [apply IHa|apply IHb]; auto; intros j v Hs; apply (Hf j); (eapply sub_arg; [|exact Hs]); cbn; auto.
Qed.
Theorem C75_programs (fsin fcos : F -> F) k pool es n :
  @est_reach (NumF fsin fcos) k pool es -> In n pool -> finite_constants n -> arith n.
Proof.
  intros Hr Hn. apply kind_arith. revert n Hn. apply Forall_forall.
  induction Hr as [|HO k pool es o n k' e Hr IH Ho E]; [constructor|]. apply Forall_app. split; [exact IH|]. constructor; [|constructor].
  assert (Hi : forall i a, nth_error pool i = Some a -> akind a = true) by (intros i a Hi; rewrite Forall_forall in IH; eapply IH; eapply nth_error_In; exact Hi).
  destruct Ho; cbn [exec] in E;
    try (apply (@with2_ok F (NumF fsin fcos)) in E as (x & y & Hx & Hy & E)); try (apply (@with1_ok F (NumF fsin fcos)) in E as (x & Hx & E)).
  - injection E as <- _. reflexivity.
  - injection E as <- _. reflexivity.
  - exact (add_nn_keeps _ _ (Hi _ _ Hx) (Hi _ _ Hy) _ _ _ E).
  - exact (add_ns_keeps _ _ (Hi _ _ Hx) _ _ _ E).
  - exact (add_sn_keeps _ _ (Hi _ _ Hx) _ _ _ E).
  - exact (sub_nn_keeps _ _ (Hi _ _ Hx) (Hi _ _ Hy) _ _ _ E).
  - exact (sub_ns_keeps _ _ (Hi _ _ Hx) _ _ _ E).
  - exact (sub_sn_keeps _ _ (Hi _ _ Hx) _ _ _ E).
  - exact (mul_nn_keeps _ _ (Hi _ _ Hx) (Hi _ _ Hy) _ _ _ E).
  - exact (mul_ns_keeps _ _ (Hi _ _ Hx) _ _ _ E).
  - exact (mul_sn_keeps _ _ (Hi _ _ Hx) _ _ _ E).
  - exact (div_ns_keeps _ _ (Hi _ _ Hx) _ _ _ E).
  - exact (neg_n_keeps _ (Hi _ _ Hx) _ _ _ E).
  - injection E as <- _. exact (Hi _ _ Hx).
Qed.

Section C75.
  Variables fsin fcos : F -> F.
  Notation NF := (NumF fsin fcos).
  Local Instance num_f : Num F := NF.
  Notation ev vs n := (@evaluate F NF vs n).

  Lemma good_near vs n f e r : good fsin fcos vs n f (e_mag e r) (e_ops e) -> near (ev vs n) f e r.
  Proof. intros G Hf. destruct (good_sv _ _ _ _ _ _ _ G) as [V _ Er]. rewrite float_value_fval. apply Er. apply finite_fin. split; [exact V|exact Hf]. Qed.
  Lemma wb_closed e : forall n c : node F, sub n e -> In c (arguments n) -> sub c e.
  Proof. intros n c Hn Hc. induction Hn as [n|s c' n H1 H2 IH]; [eapply sub_arg; [exact Hc|apply sub_refl]|]. eapply sub_arg; [exact H1|exact (IH Hc)]. Qed.
  Lemma wb_trans (a b c : node F) : sub a b -> sub b c -> sub a c.
  Proof. intros Ha Hb. induction Hb as [n|s c' n H1 H2 IH]; [exact Ha|]. eapply sub_arg; [exact H1|exact (IH Ha)]. Qed.
  Lemma wb_canonical e : @well_built F NF e -> forall n, sub n e -> @ExprSpec.canonical F NF n.
  Proof. intros [Hc _] n Hn s Hs. apply Hc. eapply wb_trans; eassumption. Qed.

  Lemma built_value vs r e der : reads vs r -> @well_built F NF e -> fine fsin fcos der vs r e ->
    good fsin fcos vs e (real_value e r) (e_mag (est_of e) r) (e_ops (est_of e)).
  Proof.
    intros Hr Hb Ha. rewrite <- est_value.
    exact (est_good fsin fcos vs r Hr (fun s => sub s e) (wb_closed e) (wb_canonical e Hb) der e (sub_refl _) Ha).
  Qed.
  Lemma built_derivative vs r e v d k k' : reads vs r -> @well_built F NF e -> fine fsin fcos true vs r e -> is_var v = true -> @path_sum F NF (rpaths v e) k = Ok (d, k') ->
    exists D, cell_derivative (real_value e) (nid v) r D /\ near (ev vs d) D (derivative_est (nid v) e) r.
  Proof.
    intros Hr Hb Ha Hv E. exists (dval (nid v) e r). split; [eapply dval_derivative; exact Ha|]. apply good_near. rewrite <- derivative_value.
    exact (derivative_good fsin fcos vs r Hr (fun s => sub s e) (wb_closed e) (proj2 Hb) (wb_canonical e Hb) e v d k k' Hv (sub_refl _) Ha E).
  Qed.
  Lemma reach_built k pool n : @reach F NF any_op k pool -> In n pool -> @well_built F NF n.
  Proof.
    intros Hp Hn. destruct (reach_world false k pool Hp) as (S & HW & HS). rewrite Forall_forall in HS. exact (world_built _ _ _ _ HW (HS n Hn)).
  Qed.

  (** ** C75 Evaluating an expression gives the value of the real function it stands for, and
      evaluating its derivative gives the derivative of that function, up to rounding. *)
  Theorem C75_value k pool n vs r :
    @reach F NF any_op k pool -> In n pool -> arith n -> reads vs r -> near (ev vs n) (real_value n r) (est_of n) r.
  Proof. intros Hp Hn Ha Hr. apply good_near. apply (built_value vs r n true); [exact Hr|exact (reach_built _ _ _ Hp Hn)|apply arith_fine; exact Ha]. Qed.
  Theorem C75_derivative (HO : HashOrd) k pool n v k1 d k2 vs r :
    @reach F NF any_op k pool -> In n pool -> arith n -> @derivative F NF HO n v k1 = Ok (d, k2) -> reads vs r ->
    exists D, cell_derivative (real_value n) (nid v) r D /\ near (ev vs d) D (derivative_est (nid v) n) r.
  Proof.
    intros Hp Hn Ha E Hr.
    assert (Hv : is_var v = true) by (destruct (is_var v) eqn:Hv; [reflexivity|]; rewrite derivative_nonvar in E by exact Hv; discriminate E).
    rewrite derivative_eq in E by exact Hv. exact (built_derivative _ _ _ _ _ _ _ Hr (reach_built _ _ _ Hp Hn) (arith_fine _ _ _ _ _ _ Ha) Hv E).
  Qed.

  (** ** C75 What evaluating a problem leaves for the solver. *)
  Lemma point_map (HO : HashOrd) (st : mstate F) m sp k' x r : @hist F NF any_op st -> In m (st_models st) -> @std_problem F NF HO m (st_k st) = Ok (sp, k') ->
    length x = m_nx (base_of (sp_prob sp)) -> point_reads sp x r -> exists vs, assigns sp x vs /\ reads vs r.
  Proof.
    intros Hh Hm E Hx Hr. destruct (@C24_bijection F NF HO st m sp k' Hh Hm E eq_refl) as (Hs & Hi & _).
    exists (map (fun vi => (fst vi, nth (snd vi) x (flit 0))) (sp_var2index sp)).
    assert (Hlt : forall v i, In (v, i) (sp_var2index sp) -> nth_error x i = Some (nth i x (flit 0))).
    { intros v i Hv. apply nth_error_nth'. apply (in_map snd) in Hv. rewrite Hs in Hv. apply in_seq in Hv. cbn [snd] in Hv. rewrite Hx. lia. }
    split.
    - intros v i Hv. exists (nth i x (flit 0)). split; [exact (Hlt _ _ Hv)|].
      assert (Hf : forall w j, In (w, j) (sp_var2index sp) -> ptr_eq v w = true -> i = j).
      { intros w j Hw Ep. destruct (Hi v w i j Hv Hw) as [_ E1]; [|exact E1]. apply ptr_eq_nid. exact Ep. }
      revert Hv Hf. generalize (sp_var2index sp). clear. induction l as [|[w j] l IH]; intros Hv Hf; [destruct Hv|]. cbn [map hget fst snd].
      destruct (ptr_eq v w) eqn:Ep; [rewrite (Hf w j (or_introl eq_refl) Ep); reflexivity|]. apply IH.
      + destruct Hv as [Hv|Hv]; [|exact Hv]. exfalso. injection Hv as -> ->. rewrite ptr_refl in Ep. discriminate Ep.
      + intros w' j' Hw. apply Hf. right. exact Hw.
    - intros v y Hv Hg. apply hget_some_in in Hg as (w & Hw & Ep). apply in_map_iff in Hw as ([w' i] & Ew & Hw). cbn [fst snd] in Ew.
      pose proof (f_equal fst Ew) as E1. pose proof (f_equal snd Ew) as E2. cbn [fst snd] in E1, E2. subst w'. pose proof (Hr _ _ _ Hw (Hlt _ _ Hw)) as G. rewrite E2 in G.
      destruct G as [H1 H2]. split; [exact H1|]. intros Hf. apply ptr_eq_nid in Ep. rewrite Ep. exact (H2 Hf).
  Qed.
  Lemma derivative_near sp x e v y vs r : assigns sp x vs -> reads vs r -> @well_built F NF e -> fine fsin fcos true vs r e -> occurs v e ->
    @is_derivative F NF sp x e v y -> exists D, cell_derivative (real_value e) (nid v) r D /\ near y D (derivative_est (nid v) e) r.
  Proof.
    intros Has Hr Hb Ha [Hv _] Hd. destruct (Hd ord_id 0%nat) as (d & k' & E & Hy). rewrite (@derivative_eq F NF ord_id) in E by exact Hv.
    rewrite <- (Hy vs Has). exact (built_derivative _ _ _ _ _ _ _ Hr Hb Ha Hv E).
  Qed.
  Lemma model_near (HO : HashOrd) (st : mstate F) m sp k' q x vs r :
    @hist F NF any_op st -> In m (st_models st) -> @std_problem F NF HO m (st_k st) = Ok (sp, k') ->
    class_of (sp_prob sp) = ClNlp \/ class_of (sp_prob sp) = ClMinlp ->
    @evolves F NF (base_of (sp_prob sp)) q -> length x = m_nx (base_of (sp_prob sp)) -> assigns sp x vs -> reads vs r ->
    exists q', @minlp_evaluate F q x = Ok q' /\
      (exists e, @minimises F NF (md_objective m) e /\
        (fine fsin fcos false vs r e -> near (b_phi (m_bufs q')) (real_value e r) (est_of e) r) /\
        (fine fsin fcos true vs r e -> p_affine (@std_properties F NF e) = false -> forall v i, In (v, i) (sp_var2index sp) -> occurs v e ->
             exists y D, nth_error (b_gphi (m_bufs q')) i = Some y /\ cell_derivative (real_value e) (nid v) r D /\ near y D (derivative_est (nid v) e) r)) /\
      (forall i c, In (i, c) (sp_jcons sp) -> In c (md_constraints m) /\
        exists sl d y, own_slack (st_k st) sp c sl /\ gives (@sub_nn F NF (clhs c) (crhs c)) d /\ nth_error (b_f (m_bufs q')) i = Some y /\
          (fine fsin fcos false vs r d -> near y (row_value d sl r) (row_est d sl) r) /\
          (fine fsin fcos true vs r d -> forall v j, In (v, j) (sp_var2index sp) -> occurs v d ->
               exists z D, at_pos (b_j (m_bufs q')) i j = [z] /\ cell_derivative (real_value d) (nid v) r D /\ near z D (derivative_est (nid v) d) r)).
  Proof.
    intros Hh Hm E Hcl Hq Hx Has Hr.
    destruct (@C74_nonlinear F NF HO st m sp k' eq_refl Hh Hm E q x Hcl Hq Hx) as (q' & Eq & [Hphi (e & He & Hb & Hc)] & _ & _ & Hrows).
    exists q'. split; [exact Eq|]. split.
    - exists e. split; [exact He|]. split.
      + intros Ha. rewrite <- (Hphi e He vs Has). apply good_near. exact (built_value vs r e false Hr Hb Ha).
      + intros Ha Haf v i Hv Ho. rewrite Haf in Hc. destruct Hc as [[_ Hg] _]. destruct (Hg v i Hv) as (y & Hy & Hd & _).
        destruct (derivative_near sp x e v y vs r Has Hr Hb Ha Ho (Hd Ho)) as (D & H1 & H2). exists y, D. auto.
    - intros i c Hic. destruct (Hrows i c Hic) as (Hcm & sl & Hsl & [(y & Hy & Hf) (d & h & Hd & (f & Hm') & Hw & Hna & Hj & _)]).
      split; [exact Hcm|]. exists sl, d, y. split; [exact Hsl|]. split; [exact Hd|]. split; [exact Hy|]. split.
      + intros Ha. rewrite <- (Hf d f Hd Hm' vs Has). apply good_near. pose proof (built_value vs r d false Hr Hw Ha) as G. destruct sl as [s|]; cbn [minus_slack row_value row_est] in *.
        * destruct Hm' as (k1 & k2 & Ef). destruct Hsl as (_ & Hs & _).
          assert (Hv : is_var s = true).
          { destruct (@C24_bijection F NF HO st m sp k' Hh Hm E eq_refl) as (_ & _ & _ & Hk & _).
            destruct (Hk s Hs) as [Hmv|(_ & nm & ->)]; [|reflexivity].
            destruct Hmv as [Hmv|(c0 & _ & [[Hmv _]|[Hmv _]])]; [|exact Hmv|exact Hmv]. destruct (md_objective m); [exact (proj1 Hmv)|exact (proj1 Hmv)|destruct Hmv]. }
          destruct s as [| j nm kd| | | | | ]; try discriminate Hv.
          pose proof (reads_var fsin fcos vs r j nm kd Hr) as Gs. cbn [real_value est_of e_sub e_ops e_mag]. exact (sub_nn_good fsin fcos vs d _ _ _ _ _ _ _ f k1 k2 G Gs Ef).
        * subst f. exact G.
      + intros Ha v j Hv Ho. destruct (Hj v j Hv) as (Ho' & _). destruct (Ho' Ho) as (z & Hz & Hder).
        destruct (derivative_near sp x d v z vs r Has Hr Hw Ha Ho Hder) as (D & H1 & H2). exists z, D. auto.
  Qed.
  Theorem C75_model (HO : HashOrd) (st : mstate F) m sp k' q x r :
    @hist F NF any_op st -> In m (st_models st) -> @std_problem F NF HO m (st_k st) = Ok (sp, k') ->
    class_of (sp_prob sp) = ClNlp \/ class_of (sp_prob sp) = ClMinlp ->
    @evolves F NF (base_of (sp_prob sp)) q -> length x = m_nx (base_of (sp_prob sp)) -> point_reads sp x r ->
    exists q', @minlp_evaluate F q x = Ok q' /\
      (exists e, @minimises F NF (md_objective m) e /\
        (arith e -> near (b_phi (m_bufs q')) (real_value e r) (est_of e) r /\
          (p_affine (@std_properties F NF e) = false -> forall v i, In (v, i) (sp_var2index sp) -> occurs v e ->
             exists y D, nth_error (b_gphi (m_bufs q')) i = Some y /\ cell_derivative (real_value e) (nid v) r D /\ near y D (derivative_est (nid v) e) r))) /\
      (forall i c, In (i, c) (sp_jcons sp) -> In c (md_constraints m) /\
        exists sl d y, own_slack (st_k st) sp c sl /\ gives (@sub_nn F NF (clhs c) (crhs c)) d /\ nth_error (b_f (m_bufs q')) i = Some y /\
          (arith d -> near y (row_value d sl r) (row_est d sl) r /\
             forall v j, In (v, j) (sp_var2index sp) -> occurs v d ->
               exists z D, at_pos (b_j (m_bufs q')) i j = [z] /\ cell_derivative (real_value d) (nid v) r D /\ near z D (derivative_est (nid v) d) r)).
  Proof.
    intros Hh Hm E Hcl Hq Hx Hpr. destruct (point_map HO st m sp k' x r Hh Hm E Hx Hpr) as (vs & Has & Hr).
    destruct (model_near HO st m sp k' q x vs r Hh Hm E Hcl Hq Hx Has Hr) as (q' & Eq & (e & He & H1 & H2) & H3).
    exists q'. split; [exact Eq|]. split.
    - exists e. split; [exact He|]. intros Ha. split; [apply H1; apply arith_fine; exact Ha|apply H2; apply arith_fine; exact Ha].
    - intros i c Hic. destruct (H3 i c Hic) as (Hc & sl & d & y & G1 & G2 & G3 & G4 & G5). split; [exact Hc|]. exists sl, d, y.
      split; [exact G1|]. split; [exact G2|]. split; [exact G3|]. intros Ha. split; [apply G4|apply G5]; apply arith_fine; exact Ha.
  Qed.
End C75.

(** x * y + x * 0.1 and its derivative by x, at x = 0.7 and y = 0.1; and the model of
    [C74_hypotheses], whose objective and nonlinear constraint are such expressions. *)
Section Ex75.
  Local Open Scope string_scope.
  #[local] Existing Instance NumF0.
  Definition c75_ops : list (op F) := [OVar "x" VarContinuous; OVar "y" VarContinuous; OMulNN 0 1; OMulNS 0 tenth; OAddNN 2 3].
  Definition c75_vals : vals F := [(c74_x, seven_tenths); (c74_y, tenth)].
  Definition c75_r (i : nat) : R := match i with O => float_value seven_tenths | _ => float_value tenth end.
  Example C75_example : exists k pool d k2,
    @reach F NumF0 any_op k pool /\ In c74_obj pool /\ arith c74_obj /\ @derivative F NumF0 ord_id c74_obj c74_x k = Ok (d, k2) /\ reads c75_vals c75_r /\
    @evaluate F NumF0 c75_vals d = SFadd 53 1024 tenth tenth /\ finiteb (@evaluate F NumF0 c75_vals d) = true /\
    (forall r, real_value c74_obj r = r 0%nat * r 1%nat + (r 0%nat * float_value tenth + 0)) /\
    e_ops (derivative_est 0 c74_obj) = 4%nat.
  Proof.
    assert (C : match @run F NumF0 ord_id c75_ops 0 [] with
                | Ok (k, pool) => nth_error pool 4 = Some c74_obj /\
                    match @derivative F NumF0 ord_id c74_obj c74_x k with
                    | Ok (d, _) => @evaluate F NumF0 c75_vals d = SFadd 53 1024 tenth tenth
                    | Panic _ => False end
                | Panic _ => False end) by (vm_compute; split; reflexivity).
    destruct (@run F NumF0 ord_id c75_ops 0 []) as [[k pool]|] eqn:E; [|destruct C]. destruct C as [C1 C2].
    destruct (@derivative F NumF0 ord_id c74_obj c74_x k) as [[d k2]|] eqn:Ed; [|destruct C2].
    exists k, pool, d, k2.
    split; [eapply (@run_reach F NumF0 ord_id c75_ops 0 []); [constructor|exact E]|]. split; [eapply nth_error_In; exact C1|].
    split; [repeat (split; try exact I); vm_compute; reflexivity|]. split; [exact Ed|]. split.
    { intros v x Hv Hg. destruct v as [i c|i s kd|i l|i a|i a b|i a b|i a]; try discriminate Hv. unfold c75_vals, c74_x, c74_y in Hg. cbn [hget ptr_eq] in Hg.
      destruct (Nat.eqb i 0) eqn:Ei; [|destruct (Nat.eqb i 1) eqn:Ei1; [|discriminate Hg]].
      - apply Nat.eqb_eq in Ei. assert (Ex : x = seven_tenths) by congruence. rewrite Ex, Ei. split; [vm_compute; reflexivity|reflexivity].
      - apply Nat.eqb_eq in Ei1. assert (Ex : x = tenth) by congruence. rewrite Ex, Ei1. split; [vm_compute; reflexivity|reflexivity]. }
    split; [exact C2|]. split; [rewrite C2; vm_compute; reflexivity|]. split; [intros r; reflexivity|]. vm_compute. reflexivity.
  Qed.
  Example C75_model_hypotheses : exists (st : mstate F) m sp k' r,
    @hist F NumF0 any_op st /\ In m (st_models st) /\ @std_problem F NumF0 ord_id m (st_k st) = Ok (sp, k') /\
    class_of (sp_prob sp) = ClNlp /\ length c74_point = m_nx (base_of (sp_prob sp)) /\ point_reads sp c74_point r /\
    (forall e, @minimises F NumF0 (md_objective m) e -> arith e /\ p_affine (@std_properties F NumF0 e) = false /\ occurs c74_x e) /\
    (exists i c, In (i, c) (sp_jcons sp) /\ forall d, gives (@sub_nn F NumF0 (clhs c) (crhs c)) d -> arith d /\ occurs c74_x d).
  Proof.
    assert (C : match @mrun F NumF0 ord_id c74_prog mstart with
                | Some st => match st_models st with
                  | [m] => match @std_problem F NumF0 ord_id m (st_k st) with
                    | Ok (sp, _) => sp_var2index sp = c74_index /\ md_objective m = Maximize c74_obj /\ class_of (sp_prob sp) = ClNlp /\
                        m_nx (base_of (sp_prob sp)) = 3%nat /\
                        match sp_jcons sp with [(0%nat, c)] => clhs c = NMul 6 c74_x c74_x /\ crhs c = NConst 8 (flit 2) | _ => False end
                    | Panic _ => False end
                  | _ => False end
                | None => False end) by (vm_compute; repeat split; reflexivity).
    destruct (@mrun F NumF0 ord_id c74_prog mstart) as [st|] eqn:E; [|destruct C].
    destruct (st_models st) as [|m [|]] eqn:Em; try (destruct C; fail).
    destruct (@std_problem F NumF0 ord_id m (st_k st)) as [[sp k']|] eqn:Es; [|destruct C].
    destruct C as (C1 & C2 & C3 & C4 & C5).
    exists st, m, sp, k', (fun i => match i with O => float_value seven_tenths | 1%nat => float_value tenth | _ => float_value (flit (-1)) end).
    split; [eapply (@mrun_hist F NumF0 ord_id c74_prog mstart); [constructor|exact E]|].
    split; [rewrite Em; left; reflexivity|]. split; [exact Es|]. split; [exact C3|]. split; [rewrite C4; reflexivity|]. split; [|split].
    - intros v i y Hv Hy. rewrite C1 in Hv. destruct Hv as [Hv|[Hv|[Hv|[]]]]; pose proof (f_equal fst Hv) as E1; pose proof (f_equal snd Hv) as E2;
        cbn [fst snd] in E1, E2; rewrite <- E1; rewrite <- E2 in Hy; cbn [c74_point nth_error] in Hy.
      + assert (Ey : y = flit (-1)) by congruence. rewrite Ey. split; [vm_compute; reflexivity|reflexivity].
      + assert (Ey : y = seven_tenths) by congruence. rewrite Ey. split; [vm_compute; reflexivity|reflexivity].
      + assert (Ey : y = tenth) by congruence. rewrite Ey. split; [vm_compute; reflexivity|reflexivity].
    - intros e He. rewrite C2 in He. destruct He as (k1 & k2 & He).
      assert (Hs : match @neg_n F NumF0 c74_obj k1 with
                   | Ok (NAdd _ [NMul _ (NConst _ a) (NMul _ x y); NMul _ (NConst _ b) (NMul _ x' (NConst _ c))], _) =>
                       a = flit (-1) /\ b = flit (-1) /\ c = tenth /\ x = c74_x /\ y = c74_y /\ x' = c74_x
                   | _ => False end) by (vm_compute; repeat split; reflexivity).
      rewrite He in Hs. clear He. destruct e as [| |i [|[| | | | |i1 [i2 a| | | | | | ] [| | | | |i3 x y| ]| ] [|[| | | | |i4 [i5 b| | | | | | ] [| | | | |i6 x' [i7 c| | | | | | ]| ]| ] [|]]]| | | | ]; try (destruct Hs; fail).
      destruct Hs as (-> & -> & -> & -> & -> & ->). split; [repeat (split; try exact I); vm_compute; reflexivity|]. split; [vm_compute; reflexivity|].
      split; [reflexivity|]. eapply sub_arg; [left; reflexivity|]. eapply sub_arg; [right; left; reflexivity|]. eapply sub_arg; [left; reflexivity|]. apply sub_refl.
    - destruct (sp_jcons sp) as [|[[|j] c] [|]]; try (destruct C5; fail). destruct C5 as [C5 C6]. exists 0%nat, c. split; [left; reflexivity|].
      intros d (k1 & k2 & Hd). rewrite C5, C6 in Hd.
      assert (Hs : match @sub_nn F NumF0 (NMul 6 c74_x c74_x) (NConst 8 (flit 2)) k1 with
                   | Ok (NAdd _ [NMul _ x y; NConst _ a], _) => a = flit (-2) /\ x = c74_x /\ y = c74_x
                   | _ => False end) by (vm_compute; repeat split; reflexivity).
      rewrite Hd in Hs. clear Hd. destruct d as [| |i [|[| | | | |i1 x y| ] [|[i2 a| | | | | | ] [|]]]| | | | ]; try (destruct Hs; fail).
      destruct Hs as (-> & -> & ->). split; [repeat (split; try exact I); vm_compute; reflexivity|].
      split; [reflexivity|]. eapply sub_arg; [left; reflexivity|]. eapply sub_arg; [left; reflexivity|]. apply sub_refl.
  Qed.
End Ex75.
