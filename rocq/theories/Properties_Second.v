(** Property C81: rounding errors of second derivatives. *)
From Verif Require Import Base Num Node NodeInd NodeDiff NodeStd Constraint Matrix Problem ModelStd Model
     ExprSpec World MapProofs EvalProofs PathProofs DerivProofs DiffProofs PanicProofs GradProofs
     MatSpec MatrixProofs ProblemProofs ModelSpec Api ApiProofs ModelApi HistProofs StdMain EvalRun Properties_Expr Properties_Constr Properties_Std ModelExample
     TextSpec ExactSpec RoundSpec PolySpec FmtProofs FloatProofs FloatOps RoundOps RoundProofs Properties_Text Properties_Exact Properties_Round
     BitSpec BitProofs Properties_Bit ArithKind DerEstSpec DerEstProofs Properties_DerEst Properties_Full SecondSpec SecondProofs.
From Coq Require Import Reals Lra Lia Floats.SpecFloat.
From Flocq Require Import Core.
Import RoundSpec.
Local Open Scope R_scope.

Section C81.
  Variables fsin fcos : F -> F.
  Notation NF := (NumF fsin fcos).
  Notation ev := (@evaluate F NF).
  Hypotheses (Hsin : accurate fsin sin) (Hcos : accurate fcos cos).

  Lemma second_built (HO : HashOrd) vs r e v d k k' w h k1 k2 : reads vs r -> @well_built F NF e -> @well_built F NF d ->
    @derivative F NF HO e v k = Ok (d, k') -> (exists HO', @derivative F NF HO' d w k1 = Ok (h, k2)) ->
    finite_constants e -> finite_constants d -> safe_quotients NF true vs r e -> safe_quotients NF true vs r d ->
    exists D, second_derivative (real_value e) (nid v) (nid w) r D /\ near_second (ev vs h) D (nid v) (nid w) e d r.
  Proof.
    intros Hr He Hd E [HO' E'] Fe Fd Qe Qd.
    assert (Hv : is_var v = true) by (destruct (is_var v) eqn:Hv; [reflexivity|]; rewrite derivative_nonvar in E by exact Hv; discriminate E).
    assert (Hw : is_var w = true) by (destruct (is_var w) eqn:Hw; [reflexivity|]; rewrite derivative_nonvar in E' by exact Hw; discriminate E').
    rewrite derivative_eq in E by exact Hv. rewrite derivative_eq in E' by exact Hw.
    pose proof (safe_fine fsin fcos true vs r e Hsin Hcos Fe Qe) as Ge. pose proof (safe_fine fsin fcos true vs r d Hsin Hcos Fd Qd) as Gd.
    exists (e_val (drift_est (nid v) (nid w) e) r). split; [apply second_nz; eapply fine_nz; exact Ge|]. intros Hf.
    pose proof (derivative_second fsin fcos vs r Hr (nid w) (fun s => sub s e) (wb_closed e) (proj2 He) (wb_canonical fsin fcos e He) e v d k k' Hv (sub_refl _) Ge E Fd) as H1.
    pose proof (derivative_good fsin fcos vs r Hr (fun s => sub s d) (wb_closed d) (proj2 Hd) (wb_canonical fsin fcos d Hd) d w h k1 k2 Hw (sub_refl _) Gd E') as H2.
    apply good_near in H2. specialize (H2 Hf). rewrite derivative_value in H2.
    match goal with |- Rabs (?a - ?c) <= _ => replace (a - c) with ((a - dval (nid w) d r) + (dval (nid w) d r - c)) by ring end.
    eapply Rle_trans; [apply Rabs_triang|]. lra.
  Qed.

  (** ** C81 Evaluating the derivative of a derivative gives the second derivative of the real
      function the expression stands for, up to rounding. *)
  Theorem C81_derivative (HO HO' : HashOrd) k pool n v d k2 w h k3 k4 vs r :
    @reach F NF any_op k pool -> In n pool -> In v pool ->
    @derivative F NF HO n v k = Ok (d, k2) -> @derivative F NF HO' d w k3 = Ok (h, k4) ->
    finite_constants n -> finite_constants d -> reads vs r -> safe_quotients NF true vs r n -> safe_quotients NF true vs r d ->
    exists D, second_derivative (real_value n) (nid v) (nid w) r D /\ near_second (ev vs h) D (nid v) (nid w) n d r.
  Proof.
    intros Hp Hn Hv E E' Fn Fd Hr Qn Qd.
    assert (Hd : @well_built F NF d).
    { apply In_nth_error in Hn as [i Hn]. apply In_nth_error in Hv as [j Hv].
      apply (reach_built fsin fcos k2 (pool ++ [d])); [|apply in_or_app; right; left; reflexivity].
      eapply (@reach_step F NF any_op HO k pool (ODeriv i j)); [exact Hp|exact I|]. cbn [exec]. unfold with2, with1. rewrite Hn, Hv. exact E. }
    exact (second_built HO vs r n v d k k2 w h k3 k4 Hr (reach_built fsin fcos _ _ _ Hp Hn) Hd E (ex_intro _ HO' E') Fn Fd Qn Qd).
  Qed.

  Lemma second_near sp x vs r e v w l : assigns sp x vs -> reads vs r -> @well_built F NF e -> @is_second F NF sp x e v w l -> near_hessian NF vs r e v w l.
  Proof.
    intros Has Hr He (HO & d & k & k' & E & Hd & HO' & dd & k1 & k2 & _ & E' & Hl). exists HO, d, k, k'. split; [exact E|]. intros Fe Fd Qe Qd.
    destruct (second_built HO vs r e v d k k' w dd k1 k2 Hr He Hd E (ex_intro _ HO' E') Fe Fd Qe Qd) as (D & H1 & H2).
    destruct (is_constant_with_value dd (@n0 F NF)) eqn:Ec.
    - exists (flit 0), D. split; [left; auto|]. split; [exact H1|]. intros _.
      destruct dd as [i c|i s kd|i a|i a|i a b|i a b|i a]; try discriminate Ec. cbn [evaluate] in H2.
      change (SFeqb c (flit 0) = true) in Ec. unfold near_second in H2.
      assert (Gc : finiteb c = true /\ float_value c = float_value (flit 0)).
      { change (@evaluate F NF vs (NConst i c)) with c in H2. destruct c as [s|s| |s m0 e0]; [split; reflexivity|destruct s; discriminate Ec|discriminate Ec|destruct s; discriminate Ec]. }
      destruct Gc as [G1 G2]. specialize (H2 G1). rewrite G2 in H2. exact H2.
    - destruct Hl as (y & Hy & ->). exists y, D. split; [right; reflexivity|]. split; [exact H1|]. rewrite <- (Hy vs Has). exact H2.
  Qed.
  Lemma hessian_near sp x vs r e h : assigns sp x vs -> reads vs r -> @well_built F NF e -> @is_hessian F NF sp x e h ->
    forall v i w j, In (v, i) (sp_var2index sp) -> In (w, j) (sp_var2index sp) -> (j <= i)%nat -> near_second_of NF vs r e v w (at_pos h i j).
  Proof.
    intros Has Hr He Hh v i w j Hv Hw Hji. split; [|exact (proj2 (Hh v i w j Hv Hw Hji))]. intros Ov Ow. destruct (proj1 (Hh v i w j Hv Hw Hji) Ov Ow) as [Hs|Hs]; [left|right]; eapply second_near; eassumption.
  Qed.
  (** ** C81 The Hessians that evaluating a problem leaves for the solver: of what is minimised and
      of the nonlinear constraints. *)
  Theorem C81_model (HO : HashOrd) (st : mstate F) m sp k' q x vs r :
    @hist F NF any_op st -> In m (st_models st) -> @std_problem F NF HO m (st_k st) = Ok (sp, k') ->
    class_of (sp_prob sp) = ClNlp \/ class_of (sp_prob sp) = ClMinlp ->
    @evolves F NF (base_of (sp_prob sp)) q -> length x = m_nx (base_of (sp_prob sp)) -> assigns sp x vs -> reads vs r ->
    exists q', @minlp_evaluate F q x = Ok q' /\
      (exists e, @minimises F NF (md_objective m) e /\
        (p_affine (@std_properties F NF e) = true -> entries (b_hphi (m_bufs q')) = []) /\
        (p_affine (@std_properties F NF e) = false ->
         forall v i w j, In (v, i) (sp_var2index sp) -> In (w, j) (sp_var2index sp) -> (j <= i)%nat ->
          near_second_of NF vs r e v w (at_pos (b_hphi (m_bufs q')) i j))) /\
      (forall t c, In (t, c) (sp_jcons sp) -> In c (md_constraints m) /\
        exists d h, gives (@sub_nn F NF (clhs c) (crhs c)) d /\ nth_error (b_h (m_bufs q')) t = Some h /\
          forall v i w j, In (v, i) (sp_var2index sp) -> In (w, j) (sp_var2index sp) -> (j <= i)%nat -> near_second_of NF vs r d v w (at_pos h i j)).
  Proof.
    intros Hh Hm E Hcl Hq Hx Has Hr.
    destruct (@C74_nonlinear F NF HO st m sp k' eq_refl Hh Hm E q x Hcl Hq Hx) as (q' & Eq & [_ (e & He & Hb & Hc)] & _ & _ & Hrows).
    exists q'. split; [exact Eq|]. split.
    - exists e. split; [exact He|]. split; intros Ha; rewrite Ha in Hc; [exact (proj2 Hc)|].
      exact (hessian_near sp x vs r e _ Has Hr Hb (proj2 Hc)).
    - intros t c Hic. destruct (Hrows t c Hic) as (Hcm & sl & _ & [_ (d & h & Hd & _ & Hw & _ & _ & Hn & Hes)]).
      split; [exact Hcm|]. exists d, h. split; [exact Hd|]. split; [exact Hn|]. exact (hessian_near sp x vs r d h Has Hr Hw Hes).
  Qed.
End C81.

(** ((sin x * y) * 0.1) / 3, its derivative by x, and the derivative of that by y, at x = 1 and y = 3. *)
Section Ex81.
  Local Open Scope string_scope.
  Notation NM := (NumF (machine sin) (machine cos)).
  Definition c81_ops : list (op F) := [OVar "x" VarContinuous; OVar "y" VarContinuous; OSin 0; OMulNN 2 1; OMulNS 3 tenth; ODivNS 4 (flit 3)].
  Definition c81_expr : node F := NDiv 7 (NMul 5 (NMul 3 (NSin 2 c74_x) c74_y) (NConst 4 tenth)) (NConst 6 (flit 3)).
  (** 0.1 and 1/3 have been multiplied. *)
  Definition c81_const : F := SFmul 53 1024 (SFdiv 53 1024 (flit 1) (flit 3)) tenth.
  Definition c81_d : node F := NMul 14 (NMul 12 (NConst 11 c81_const) c74_y) (NCos 13 c74_x).
  Example C81_example : exists k pool h k4,
    accurate (machine sin) sin /\ accurate (machine cos) cos /\
    @reach F NM any_op k pool /\ In c81_expr pool /\ In c74_x pool /\
    @derivative F NM ord_id c81_expr c74_x k = Ok (c81_d, 15%nat) /\ @derivative F NM ord_id c81_d c74_y 15%nat = Ok (h, k4) /\
    finite_constants c81_expr /\ finite_constants c81_d /\ reads c76_vals c76_r /\
    safe_quotients NM true c76_vals c76_r c81_expr /\ safe_quotients NM true c76_vals c76_r c81_d /\
    e_ops (derivative_est 1 c81_d) = 4%nat /\ e_ops (drift_est 0 1 c81_expr) = 24%nat.
  Proof.
    assert (C : match @run F NM ord_id c81_ops 0 [] with
                | Ok (k, pool) => nth_error pool 5 = Some c81_expr /\ nth_error pool 0 = Some c74_x /\
                    @derivative F NM ord_id c81_expr c74_x k = Ok (c81_d, 15%nat)
                | Panic _ => False end) by (vm_compute; auto).
    assert (C3 : match @derivative F NM ord_id c81_d c74_y 15%nat with Ok _ => True | Panic _ => False end) by (vm_compute; auto).
    destruct (@run F NM ord_id c81_ops 0 []) as [[k pool]|] eqn:E; [|destruct C]. destruct C as (C0 & C1 & C2).
    destruct (@derivative F NM ord_id c81_d c74_y 15%nat) as [[h k4]|] eqn:Eh; [|destruct C3].
    exists k, pool, h, k4. destruct C76_accurate as [A1 A2]. split; [exact A1|]. split; [exact A2|].
    split; [eapply (@run_reach F NM ord_id c81_ops 0 []); [constructor|exact E]|]. split; [eapply nth_error_In; exact C0|]. split; [eapply nth_error_In; exact C1|].
    split; [exact C2|]. split; [reflexivity|].
    assert (Hfin : forall e, e = c81_expr \/ e = c81_d -> finite_constants e).
    { intros e He i v Hs. destruct He as [-> | ->]; unfold c81_expr, c81_d, c74_x, c74_y in Hs;
      repeat match goal with
      | Hs : sub _ (NVar _ _ _) |- _ => inversion Hs; clear Hs; subst
      | Hs : sub _ (NConst _ _) |- _ => inversion Hs; clear Hs; subst
      | Hs : sub _ (NMul _ _ _) |- _ => inversion Hs; clear Hs; subst
      | Hs : sub _ (NDiv _ _ _) |- _ => inversion Hs; clear Hs; subst
      | Hs : sub _ (NSin _ _) |- _ => inversion Hs; clear Hs; subst
      | Hs : sub _ (NCos _ _) |- _ => inversion Hs; clear Hs; subst
      | Hi : In _ _ |- _ => cbn [arguments In] in Hi
      | Hi : _ \/ _ |- _ => destruct Hi as [<-|Hi]
      | Hi : False |- _ => destruct Hi
      end; split; vm_compute; reflexivity. }
    split; [apply Hfin; auto|]. split; [apply Hfin; auto|]. split.
    { intros v x Hv Hg. destruct v as [i c|i s kd|i l|i a|i a b|i a b|i a]; try discriminate Hv. unfold c76_vals, c74_x, c74_y in Hg. cbn [hget ptr_eq] in Hg.
      destruct (Nat.eqb i 0) eqn:Ei; [|destruct (Nat.eqb i 1) eqn:Ei1; [|discriminate Hg]].
      - apply Nat.eqb_eq in Ei. assert (Ex : x = flit 1) by congruence. rewrite Ex, Ei. split; [vm_compute; reflexivity|reflexivity].
      - apply Nat.eqb_eq in Ei1. assert (Ex : x = flit 3) by congruence. rewrite Ex, Ei1. split; [vm_compute; reflexivity|reflexivity]. }
    cbn. repeat split.
  Qed.
End Ex81.
