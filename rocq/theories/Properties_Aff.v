(** Property C82: the coefficients of affine expressions are derivatives up to rounding, and
    first-order conditions in binary64. *)
From Verif Require Import Base Num Node NodeInd NodeDiff NodeStd Constraint Matrix Problem ModelStd Model
     ExprSpec World Sim MapProofs StdPropProofs EvalProofs GradProofs MatSpec MatrixProofs ProblemProofs PartsProofs BuildProofs BuildMain ModelSpec StdFacts
     Api ApiProofs ModelApi StdMain HistProofs PartsProofs EvalRun OccProofs Properties_Constr Properties_Std ModelExample TextSpec ExactSpec RoundSpec FmtProofs FloatProofs FloatOps RoundOps RoundProofs Properties_Text Properties_Exact Properties_Round
     NoFun RoundCoef CoefProofs HashProofs PolySpec BitSpec BitProofs Properties_Bit DerEstSpec DerEstProofs Properties_DerEst Properties_Full KktSpec AffSpec.
From Coq Require Import Reals Lra Lia Floats.SpecFloat Classical_Prop.
From Flocq Require Import Core.
Import RoundSpec.
Local Open Scope R_scope.

Lemma dval_absent c n r : (forall v, occurs v n -> nid v <> c) -> dval c n r = 0.
Proof.
  assert (Hs : forall (x y v : node F), In x (arguments y) -> occurs v x -> occurs v y) by (intros x y v Hx [Hv Hs]; split; [exact Hv|eapply sub_arg; eassumption]).
  induction n as [i w|i st kd|i args IH|i a IH|i a b IHa IHb|i a b IHa IHb|i a IH] using node_ind'; intros Hn.
  - reflexivity.
  - cbn [dval]. pose proof (Hn (NVar i st kd) (conj eq_refl (sub_refl _))) as G. cbn [nid] in G. rewrite (proj2 (Nat.eqb_neq _ _) G). reflexivity.
  - cbn [dval]. assert (G : Forall (fun a => dval c a r = 0) args).
    { rewrite Forall_forall in *. intros a Ha. apply IH; [exact Ha|]. intros v Hv. apply Hn. eapply Hs; [|exact Hv]. exact Ha. }
    clear -G. induction G as [|a l Ha _ IH]; [reflexivity|]. cbn [fold_right]. rewrite Ha, IH. ring.
  - cbn [dval]. rewrite IH; [ring|]. intros v Hv. apply Hn. eapply Hs; [|exact Hv]. cbn; auto.
  - destruct (const_or b) as [Cb|(j & v & ->)].
    + rewrite dval_div by exact Cb. rewrite IHa, IHb; [ring| |]; intros v Hv; apply Hn; (eapply Hs; [|exact Hv]); cbn; auto.
    + cbn [dval]. rewrite IHa; [unfold Rdiv; ring|]. intros u Hu. apply Hn. eapply Hs; [|exact Hu]. cbn; auto.
  - cbn [dval]. rewrite IHa, IHb; [ring| |]; intros v Hv; apply Hn; (eapply Hs; [|exact Hv]); cbn; auto.
  - cbn [dval]. rewrite IH; [ring|]. intros v Hv. apply Hn. eapply Hs; [|exact Hv]. cbn; auto.
Qed.

Lemma terms_absent c n : (forall v, occurs v n -> nid v <> c) -> forall acc, occurrence_terms c n acc = [].
Proof.
  assert (Hs : forall (x y v : node F), In x (arguments y) -> occurs v x -> occurs v y) by (intros x y v Hx [Hv Hs]; split; [exact Hv|eapply sub_arg; eassumption]).
  induction n as [i w|i st kd|i args IH|i a IH|i a b IHa IHb|i a b IHa IHb|i a IH] using node_ind'; intros Hn acc.
  - reflexivity.
  - cbn [occurrence_terms]. pose proof (Hn (NVar i st kd) (conj eq_refl (sub_refl _))) as G. cbn [nid] in G. rewrite (proj2 (Nat.eqb_neq _ _) G). reflexivity.
  - cbn [occurrence_terms]. assert (G : Forall (fun a => occurrence_terms c a acc = []) args).
    { rewrite Forall_forall in *. intros a Ha. apply IH; [exact Ha|]. intros v Hv. apply Hn. eapply Hs; [|exact Hv]. exact Ha. }
    clear -G. induction G as [|a l Ha _ IH]; [reflexivity|]. cbn [flat_map]. rewrite Ha, IH. reflexivity.
  - cbn [occurrence_terms]. apply IH. intros v Hv. apply Hn. eapply Hs; [|exact Hv]. cbn; auto.
  - assert (Ga : forall acc, occurrence_terms c a acc = []) by (apply IHa; intros v Hv; apply Hn; (eapply Hs; [|exact Hv]); cbn; auto).
    assert (Gb : forall acc, occurrence_terms c b acc = []) by (apply IHb; intros v Hv; apply Hn; (eapply Hs; [|exact Hv]); cbn; auto).
    destruct (const_or b) as [Cb|(j & v & ->)]; [rewrite terms_div by exact Cb; rewrite Ga, Gb; reflexivity|]. cbn [occurrence_terms]. apply Ga.
  - cbn [occurrence_terms]. rewrite IHa, IHb; [reflexivity| |]; intros v Hv; apply Hn; (eapply Hs; [|exact Hv]); cbn; auto.
  - cbn [occurrence_terms]. apply IH. intros v Hv. apply Hn. eapply Hs; [|exact Hv]. cbn; auto.
Qed.
Lemma is_var_dec (v n : node F) : occurs v n \/ ~ occurs v n.
Proof. apply Classical_Prop.classic. Qed.

Section C82.
  Variables fsin fcos : F -> F.
  Notation NF := (NumF fsin fcos).
  Local Instance num_f : Num F := NF.
  Notation can n := (@ExprSpec.canonical F NF n).

  Lemma can_arg (x n : node F) : can n -> In x (arguments n) -> can x.
  Proof.
    intros Hc Hx s Hs. apply Hc. clear Hc. induction Hs as [|s c y Hc Hs IH]; [eapply sub_arg; [exact Hx|apply sub_refl]|].
    eapply sub_arg; [exact Hx|]. eapply sub_arg; eassumption.
  Qed.
  Lemma fc_arg (x n : node F) : finite_constants n -> In x (arguments n) -> finite_constants x.
  Proof. intros Hc Hx i v Hs. apply (Hc i v). eapply sub_arg; eassumption. Qed.
  Lemma can_nokeys (n : node F) : can n -> (length (p_a (@std_properties F NF n)) =? 0)%nat = true -> exists i v, n = NConst i v.
  Proof.
    intros Hc Hl. destruct (Hc n (sub_refl _)) as [[Hk|(v & Hv)] _].
    - destruct n; try discriminate Hk. eauto.
    - pose proof (@occurs_has F NF n v Hv) as G. revert G Hl. destruct (p_a (@std_properties F NF n)); intros G Hl; [discriminate G|discriminate Hl].
  Qed.
  Lemma div_nz i a j v : can (NDiv i a (NConst j v)) -> finite64 v -> fval v <> 0.
  Proof.
    intros Hc Hv. destruct (Hc _ (sub_refl _)) as (_ & Hz). apply finite_fin in Hv.
    change (SFeqb v (flit 0) = false) in Hz. rewrite (feqb_fin v _ Hv fin_flit0), fval_flit0 in Hz. intros Z. rewrite Z in Hz.
    destruct (Req_bool_spec 0 0); [discriminate Hz|congruence].
  Qed.
  Lemma affine_args i l : p_affine (@std_properties F NF (NAdd i l)) = true -> Forall (fun a => p_affine (@std_properties F NF a) = true) l.
  Proof. intros Ha. change (affb (NAdd i l) = true) in Ha. rewrite affb_add in Ha. apply Forall_forall. intros a Hin. rewrite forallb_forall in Ha. exact (Ha a Hin). Qed.
  Lemma affine_mul i a b : can (NMul i a b) -> p_affine (@std_properties F NF (NMul i a b)) = true ->
    (exists j v, a = NConst j v) /\ p_affine (@std_properties F NF b) = true \/ (exists j v, b = NConst j v) /\ p_affine (@std_properties F NF a) = true.
  Proof.
    intros Hc Ha. cbn [std_properties p_affine] in Ha. apply orb_true_iff in Ha as [Ha|Ha]; apply andb_true_iff in Ha as [H1 H2].
    - right. split; [|exact H1]. apply can_nokeys; [|exact H2]. apply (can_arg b _ Hc). cbn; auto.
    - left. split; [|exact H1]. apply can_nokeys; [|exact H2]. apply (can_arg a _ Hc). cbn; auto.
  Qed.
  Lemma affine_div i a b : can (NDiv i a b) -> p_affine (@std_properties F NF (NDiv i a b)) = true ->
    (exists j v, b = NConst j v) /\ p_affine (@std_properties F NF a) = true.
  Proof.
    intros Hc Ha. cbn [std_properties p_affine] in Ha. apply andb_true_iff in Ha as [H1 H2].
    split; [|exact H1]. apply can_nokeys; [|exact H2]. apply (can_arg b _ Hc). cbn; auto.
  Qed.

  (** Canonical affine expressions are made of variables, constants, sums, products and quotients by constants. *)
  Lemma affine_arith n : can n -> finite_constants n -> p_affine (@std_properties F NF n) = true -> arith n /\ nofun n = true.
  Proof.
    induction n as [i w|i st kd|i args IH|i a IH|i a b IHa IHb|i a b IHa IHb|i a IH] using node_ind'; intros Hc Hf Ha; try discriminate Ha.
    - split; [exact (Hf i w (sub_refl _))|reflexivity].
    - split; [exact I|reflexivity].
    - pose proof (affine_args _ _ Ha) as Hl. cbn [arith nofun].
      assert (G : Forall (fun a => arith a /\ nofun a = true) args).
      { rewrite Forall_forall in *. intros a Hin. apply IH; [exact Hin|exact (can_arg a _ Hc Hin)|exact (fc_arg a _ Hf Hin)|exact (Hl a Hin)]. }
      clear -G. induction G as [|a l [A B] _ [C D]]; [split; [exact I|reflexivity]|]. cbn [forallb]. rewrite B, D. repeat split; assumption.
    - destruct (affine_div _ _ _ Hc Ha) as [(j & v & ->) Hx].
      destruct (IHa (can_arg a _ Hc (or_introl eq_refl)) (fc_arg a _ Hf (or_introl eq_refl)) Hx) as [A B]. cbn [arith nofun]. rewrite B.
      split; [|reflexivity]. split; [exact A|]. apply (Hf j). eapply sub_arg; [right; left; reflexivity|apply sub_refl].
    - assert (Ga : can a /\ finite_constants a) by (split; [exact (can_arg a _ Hc (or_introl eq_refl))|exact (fc_arg a _ Hf (or_introl eq_refl))]).
      assert (Gb : can b /\ finite_constants b) by (split; [exact (can_arg b _ Hc (or_intror (or_introl eq_refl)))|exact (fc_arg b _ Hf (or_intror (or_introl eq_refl)))]).
      cbn [arith nofun]. destruct (affine_mul _ _ _ Hc Ha) as [[(j & v & ->) Hx]|[(j & v & ->) Hx]].
      + destruct (IHb (proj1 Gb) (proj2 Gb) Hx) as [A B]. rewrite B. cbn [nofun arith]. split; [|reflexivity]. split; [exact (proj2 Ga j v (sub_refl _))|exact A].
      + destruct (IHa (proj1 Ga) (proj2 Ga) Hx) as [A B]. rewrite B. cbn [nofun arith]. split; [|reflexivity]. split; [exact A|exact (proj2 Gb j v (sub_refl _))].
  Qed.

  Notation cv v := (cv fsin fcos v).
  Lemma sv_of_int (b : bool) : sv (if b then flit 1 else flit 0) (if b then 1 else 0) (if b then 1 else 0) 0.
  Proof. exact (sv_01 b). Qed.
  Lemma comb_sum o o' f m g l k j : sv (getd o) f m k -> sv (getd o') g l j -> sv (getd (@comb F NF o o')) (f + g) (m + l) (k + (j + 1)).
  Proof.
    intros Sx Sy. replace (k + (j + 1))%nat with (Datatypes.S (k + j)) by lia.
    apply (comb_sv fsin fcos); [eapply sv_weak; [exact Sx|apply Rle_refl|lia]|eapply sv_weak; [exact Sy|apply Rle_refl|lia]].
  Qed.
  Lemma fold_sum (vc : node F) (es : node F -> est) r l : Forall (fun a => sv (cv vc a) (dval (nid vc) a r) (e_mag (es a) r) (e_ops (es a))) l ->
    forall acc f m k, sv (getd acc) f m k ->
    sv (getd (fold_left (fun a x => @comb F NF a (coefo vc x)) l acc)) (f + fold_right (fun a s => dval (nid vc) a r + s) 0 l)
       (m + tot (map (fun a => e_mag (es a) r) l)) (k + sumN (map (fun a => (e_ops (es a) + 1)%nat) l)).
  Proof.
    intros Hl. induction Hl as [|a l Ha _ IH]; intros acc f m k Hacc.
    - cbn. rewrite !Rplus_0_r, Nat.add_0_r. exact Hacc.
    - cbn [fold_left fold_right map tot sumN]. rewrite <- !Rplus_assoc, Nat.add_assoc. apply IH. apply comb_sum; [exact Hacc|exact Ha].
  Qed.
  Lemma scaled_sv (o : option F) v f m k : sv (getd o) f m k -> fin v ->
    sv (getd (option_map (fun x => @nmul F NF x v) o)) (f * fval v) (m * Rabs (fval v) + INR ((k + 1) * (0 + 1)) * tiny) (k + 0 + 1).
  Proof.
    intros So Hv. assert (Ht : 0 <= INR ((k + 1) * (0 + 1)) * tiny) by (apply Rmult_le_pos; [apply pos_INR|pose proof tiny_pos; lra]).
    assert (H1 : tiny <= INR ((k + 1) * (0 + 1)) * tiny).
    { rewrite <- (Rmult_1_l tiny) at 1. apply Rmult_le_compat_r; [pose proof tiny_pos; lra|]. change 1 with (INR 1). apply le_INR. lia. }
    destruct o as [x|]; cbn [option_map getd] in *.
    - pose proof (sv_mul _ _ _ _ _ _ _ _ So (sv_exact _ Hv)) as G. eapply sv_weak; [exact G|lra|lia].
    - rewrite (Rmult_comm f), (Rmult_comm m). pose proof (zero_by v _ _ _ _ _ _ (sv_exact _ Hv) So) as G.
      eapply sv_weak; [exact G|lra|lia].
  Qed.
  Lemma divided_sv (o : option F) v f m k : sv (getd o) f m k -> fin v -> fval v <> 0 ->
    sv (getd (option_map (fun x => @ndiv F NF x v) o)) (f / fval v) (m / Rabs (fval v) + tiny) (k + 1).
  Proof.
    intros So Hv Nv. pose proof (sv_div _ _ _ _ _ So Hv Nv) as G. destruct o as [x|]; cbn [option_map getd] in *.
    - eapply sv_weak; [exact G|lra|lia].
    - pose proof tiny_pos as Ht. assert (E : f / fval v = f * / fval v) by reflexivity. destruct G as [_ Gm _].
      constructor; [apply fin_flit0|exact Gm|]. intros _. rewrite fval_flit0.
      destruct So as [_ Am Er]. specialize (Er fin_flit0). rewrite fval_flit0 in Er.
      replace (0 - f / fval v) with ((0 - f) * / fval v) by (unfold Rdiv; ring). rewrite Rabs_mult, Rabs_inv.
      assert (Hp : 0 < / Rabs (fval v)) by (apply Rinv_0_lt_compat, Rabs_pos_lt; exact Nv).
      apply Rle_trans with (gam k * (m / Rabs (fval v))).
      { unfold Rdiv. rewrite <- Rmult_assoc. apply Rmult_le_compat_r; [lra|exact Er]. }
      assert (Hm : 0 <= m) by (pose proof (Rabs_pos f); lra).
      assert (Hq : 0 <= m / Rabs (fval v)) by (apply Rmult_le_pos; [exact Hm|lra]).
      apply Rmult_le_compat; [apply gam_pos|exact Hq|apply gam_mono; lia|lra].
  Qed.

  (** The coefficient of the affine form is the derivative up to rounding. *)
  Lemma coef_sv vc r n : is_var vc = true -> can n -> finite_constants n -> p_affine (@std_properties F NF n) = true ->
    sv (cv vc n) (dval (nid vc) n r) (e_mag (coefficient_est (nid vc) n) r) (e_ops (coefficient_est (nid vc) n)).
  Proof.
    intros Hv. assert (Z : sv (flit 0) 0 (Rabs (float_value (flit 0))) 0).
    { rewrite float_value_fval, fval_flit0, Rabs_R0. exact sv0. }
    induction n as [i w|i st kd|i args IH|i a IH|i a b IHa IHb|i a b IHa IHb|i a IH] using node_ind'; intros Hc Hf Ha; try discriminate Ha.
    - exact Z.
    - cbn [dval coefficient_est e_one_if e_mag e_ops]. unfold RoundCoef.cv, coefo. cbn [std_properties p_a hget fst snd].
      destruct vc as [|j s' kd'| | | | |]; try discriminate Hv. cbn [ptr_eq nid]. rewrite (Nat.eqb_sym i j).
      pose proof (sv_of_int (Nat.eqb j i)) as G. destruct (Nat.eqb j i); exact G.
    - pose proof (affine_args _ _ Ha) as Hl.
      assert (G : Forall (fun a => sv (cv vc a) (dval (nid vc) a r) (e_mag (coefficient_est (nid vc) a) r) (e_ops (coefficient_est (nid vc) a))) args).
      { rewrite Forall_forall in *. intros a Hin. apply IH; [exact Hin|exact (can_arg a _ Hc Hin)|exact (fc_arg a _ Hf Hin)|exact (Hl a Hin)]. }
      cbn [dval coefficient_est]. rewrite e_sum_mag, e_sum_ops, !map_map. unfold RoundCoef.cv. rewrite coefo_add.
      pose proof (fold_sum vc (coefficient_est (nid vc)) r args G None 0 0 0 sv0) as Q. rewrite !Rplus_0_l, Nat.add_0_l in Q. exact Q.
    - destruct (affine_div _ _ _ Hc Ha) as [(j & v & ->) Hx].
      pose proof (IHa (can_arg a _ Hc (or_introl eq_refl)) (fc_arg a _ Hf (or_introl eq_refl)) Hx) as G.
      assert (Hfv : finite64 v) by (apply (Hf j); eapply sub_arg; [right; left; reflexivity|apply sub_refl]).
      unfold RoundCoef.cv. rewrite coefo_div. cbn [dval coefficient_est e_div e_mag e_ops]. rewrite !float_value_fval.
      apply divided_sv; [exact G|exact (proj1 (finite_fin v) Hfv)|exact (div_nz _ _ _ _ Hc Hfv)].
    - assert (Ga : can a /\ finite_constants a) by (split; [exact (can_arg a _ Hc (or_introl eq_refl))|exact (fc_arg a _ Hf (or_introl eq_refl))]).
      assert (Gb : can b /\ finite_constants b) by (split; [exact (can_arg b _ Hc (or_intror (or_introl eq_refl)))|exact (fc_arg b _ Hf (or_intror (or_introl eq_refl)))]).
      assert (Hb : forall j v, b = NConst j v -> is_constant a = false -> p_affine (@std_properties F NF a) = true ->
        sv (cv vc (NMul i a b)) (dval (nid vc) (NMul i a b) r) (e_mag (coefficient_est (nid vc) (NMul i a b)) r) (e_ops (coefficient_est (nid vc) (NMul i a b)))).
      { intros j v -> Ca Hx. pose proof (IHa (proj1 Ga) (proj2 Ga) Hx) as G. unfold RoundCoef.cv. rewrite coefo_mul_r. cbn [dval real_value].
        replace (coefficient_est (nid vc) (NMul i a (NConst j v))) with (e_mul (coefficient_est (nid vc) a) (e_const v)) by (destruct a; try discriminate Ca; reflexivity).
        cbn [e_mul e_const e_mag e_ops]. rewrite !float_value_fval, Rmult_0_r, Rplus_0_r. apply scaled_sv; [exact G|]. exact (proj1 (finite_fin v) (proj2 Gb j v (sub_refl _))). }
      assert (Hl : forall j v, a = NConst j v -> p_affine (@std_properties F NF b) = true ->
        sv (cv vc (NMul i a b)) (dval (nid vc) (NMul i a b) r) (e_mag (coefficient_est (nid vc) (NMul i a b)) r) (e_ops (coefficient_est (nid vc) (NMul i a b)))).
      { intros j v -> Hx. pose proof (IHb (proj1 Gb) (proj2 Gb) Hx) as G. unfold RoundCoef.cv. rewrite coefo_mul_l. cbn [dval real_value coefficient_est e_mul e_const e_mag e_ops].
        rewrite !float_value_fval, Rmult_0_l, Rplus_0_l, (Rmult_comm (fval v)). apply scaled_sv; [exact G|]. exact (proj1 (finite_fin v) (proj2 Ga j v (sub_refl _))). }
      destruct (affine_mul _ _ _ Hc Ha) as [[(j & v & Ea) Hx]|[(j & v & Eb) Hx]]; [exact (Hl j v Ea Hx)|].
      destruct (is_constant a) eqn:Ca; [|exact (Hb j v Eb eq_refl Hx)]. destruct a as [j' v'| | | | | |]; try discriminate Ca. apply (Hl j' v' eq_refl). rewrite Eb. reflexivity.
  Qed.
  Lemma cv_coefficient vc n : cv vc n = coefficient NF n vc.
  Proof. reflexivity. Qed.

  Lemma sv_close_to x f m k (e : est) r : sv x f m k -> e_mag e r = m -> e_ops e = k -> near x f e r.
  Proof. intros [V _ Er] <- <- Hf. rewrite float_value_fval. apply Er. split; [exact V|exact Hf]. Qed.
  Lemma coef_near vc r n : is_var vc = true -> can n -> finite_constants n -> p_affine (@std_properties F NF n) = true ->
    cell_derivative (real_value n) (nid vc) r (dval (nid vc) n r) /\
    near (coefficient NF n vc) (dval (nid vc) n r) (coefficient_est (nid vc) n) r.
  Proof.
    intros Hv Hc Hf Ha. split.
    - apply (dval_derivative fsin fcos false []). apply arith_fine. exact (proj1 (affine_arith n Hc Hf Ha)).
    - exact (sv_close_to _ _ _ _ _ _ (coef_sv vc r n Hv Hc Hf Ha) eq_refl eq_refl).
  Qed.
  (** ** C82 The coefficients of the affine form of an expression are its partial derivatives, and
      its constant term the value where all variables are zero, up to rounding. *)
  Theorem C82_coefficient k pool n v r : @reach F NF any_op k pool -> In n pool -> finite_constants n ->
    p_affine (@std_properties F NF n) = true -> is_var v = true ->
    exists D, cell_derivative (real_value n) (nid v) r D /\ near (coefficient NF n v) D (coefficient_est (nid v) n) r.
  Proof.
    intros Hp Hn Hf Ha Hv. exists (dval (nid v) n r). apply coef_near; auto. exact (proj1 (reach_built fsin fcos _ _ _ Hp Hn)).
  Qed.
  Lemma constant_near n : @well_built F NF n -> finite_constants n -> p_affine (@std_properties F NF n) = true ->
    near (p_b (@std_properties F NF n)) (real_value n (fun _ => 0)) (est_of n) (fun _ => 0).
  Proof.
    intros Hb Hf Ha. destruct (affine_arith n (proj1 Hb) Hf Ha) as [A B]. pose proof (@pb_evaluate F NF (zeros fsin fcos n) n B (zeros_get fsin fcos n)) as Ep. rewrite Ep.
    pose proof (good_sv _ _ _ _ _ _ _ (built_value fsin fcos (zeros fsin fcos n) (fun _ => 0) n false (zeros_reads fsin fcos n) Hb (arith_fine fsin fcos false _ _ _ A))) as G.
    exact (sv_close_to _ _ _ _ _ _ G eq_refl eq_refl).
  Qed.
  Theorem C82_constant k pool n : @reach F NF any_op k pool -> In n pool -> finite_constants n ->
    p_affine (@std_properties F NF n) = true ->
    near (p_b (@std_properties F NF n)) (real_value n (fun _ => 0)) (est_of n) (fun _ => 0).
  Proof. intros Hp Hn. apply constant_near. exact (reach_built fsin fcos _ _ _ Hp Hn). Qed.

  (** *** In models *)
  Hypotheses (Hsin : accurate fsin sin) (Hcos : accurate fcos cos).
  Lemma stored_one (a : coo F) i j o : at_pos a i j = match o with Some y => [y] | None => [] end ->
    stored a i j = float_value (match o with Some y => y | None => flit 0 end) /\ (stored_finite a i j -> finiteb (match o with Some y => y | None => flit 0 end) = true).
  Proof.
    intros E. unfold stored, stored_finite. rewrite E. destruct o as [y|]; cbn [map total fold_right].
    - split; [ring|]. intros G. exact (Forall_inv G).
    - split; [rewrite float_value_fval, fval_flit0; reflexivity|]. intros _. reflexivity.
  Qed.
  Lemma gives_built (st : mstate F) m c d0 : @hist F NF any_op st -> In m (st_models st) -> In c (md_constraints m) ->
    gives (@sub_nn F NF (clhs c) (crhs c)) d0 ->
    exists d, gives (@sub_nn F NF (clhs c) (crhs c)) d /\ @well_built F NF d.
  Proof.
    intros Hh Hm Hc (k0 & k1 & E0). destruct (hist_inv false st Hh) as (S & Hi).
    pose proof (hi_models _ _ _ Hi) as G. rewrite Forall_forall in G. destruct (G m Hm) as (Mi & _ & _).
    pose proof (hi_world _ _ _ Hi) as HW. pose proof (mi_cons _ _ Mi) as HC. rewrite Forall_forall in HC. destruct (HC c Hc) as [S1 S2].
    pose proof (sub_nn_sim e0 (clhs c) (crhs c) _ _ eq_refl eq_refl k0 (st_k st)) as Hs. change (@sub_nn F num_f (clhs c) (crhs c) k0 = Ok (d0, k1)) in E0. rewrite E0 in Hs.
    destruct (sub_nn (clhs c) (crhs c) (st_k st)) as [[d k2]|] eqn:E; [|destruct Hs].
    destruct (sub_nn_grows false _ S _ _ HW S1 S2 _ _ E) as (_ & S' & _ & W' & Sd).
    exists d. split; [exists (st_k st), k2; exact E|exact (world_built _ _ _ _ W' Sd)].
  Qed.
  Lemma minimises_built (st : mstate F) m e0' : @hist F NF any_op st -> In m (st_models st) -> @minimises F NF (md_objective m) e0' ->
    exists e, @minimises F NF (md_objective m) e /\ @well_built F NF e.
  Proof.
    intros Hh Hm He. destruct (hist_inv false st Hh) as (S & Hi).
    pose proof (hi_models _ _ _ Hi) as G. rewrite Forall_forall in G. destruct (G m Hm) as (Mi & _ & _).
    pose proof (hi_world _ _ _ Hi) as HW. pose proof (mi_obj _ _ Mi) as So.
    destruct (md_objective m) as [f|f|]; cbn [minimises] in *.
    - exists f. split; [reflexivity|exact (world_built _ _ _ _ HW So)].
    - destruct He as (k0 & k1 & E0). pose proof (neg_n_sim e0 f f eq_refl k0 (st_k st)) as Hs. change (@neg_n F num_f f k0 = Ok (e0', k1)) in E0. rewrite E0 in Hs.
      destruct (neg_n f (st_k st)) as [[d k2]|] eqn:E; [|destruct Hs].
      destruct (neg_n_grows false _ S _ HW So _ _ E) as (_ & S' & _ & W' & Sd).
      exists d. split; [exists (st_k st), k2; exact E|exact (world_built _ _ _ _ W' Sd)].
    - destruct (mk_const_grows false _ S (flit 0) HW _ _ eq_refl) as (_ & S' & _ & W' & Sd & _).
      exists (NConst (st_k st) (flit 0)). split; [exists (st_k st), (Datatypes.S (st_k st)); reflexivity|exact (world_built _ _ _ _ W' Sd)].
  Qed.

  Lemma choose {A B} (P : A -> B -> Prop) l : (forall a, In a l -> exists b, P a b) -> exists bs, Forall2 P l bs.
  Proof.
    induction l as [|a l IH]; intros Hp; [exists []; constructor|]. destruct (Hp a (or_introl eq_refl)) as [b Hb].
    destruct IH as [bs Hbs]; [intros x Hx; apply Hp; right; exact Hx|]. exists (b :: bs). constructor; assumption.
  Qed.
  Lemma weighted_close {A} (S' : nat -> R) (D err : node F -> R) (l : list (nat * A)) ds :
    Forall2 (fun ic d => Rabs (S' (fst ic) - D d) <= err d) l ds -> forall n0 n w, map fst l = seq n0 n ->
    Rabs (weighted w (map S' (seq n0 n)) - weighted w (map D ds)) <= weighted_error w (map err ds).
  Proof.
    intros Hf. induction Hf as [|[i a] d l ds H1 Hf IH]; intros n0 n w E.
    - destruct n; [|discriminate E]. cbn. rewrite Rminus_0_r, Rabs_R0. apply Rle_refl.
    - destruct n as [|n]; [discriminate E|]. cbn [map seq fst] in E. injection E as -> E. cbn [map seq fst weighted] in *.
      unfold weighted_error. cbn [map weighted]. specialize (IH (Datatypes.S n0) n (fun i => w (Datatypes.S i)) E). unfold weighted_error in IH.
      match goal with |- Rabs (?w0 * ?a + ?b - (?w0 * ?c + ?d')) <= _ => replace (w0 * a + b - (w0 * c + d')) with (w0 * (a - c) + (b - d')) by ring end.
      eapply Rle_trans; [apply Rabs_triang|]. apply Rplus_le_compat; [|exact IH]. rewrite Rabs_mult. apply Rmult_le_compat_l; [apply Rabs_pos|exact H1].
  Qed.

  Section Model.
    Context (HO : HashOrd).
    Variables (st : mstate F) (m : model F) (sp : std_prob F) (k' : nat).
    Hypothesis Hh : @hist F NF any_op st.
    Hypothesis Hm : In m (st_models st).
    Hypothesis E : @std_problem F NF HO m (st_k st) = Ok (sp, k').
    Notation A := (m_a (base_of (sp_prob sp))).
    Notation diff_of c d := (gives (@sub_nn F NF (clhs c) (crhs c)) d).

    Lemma v2i_var v j : In (v, j) (sp_var2index sp) -> is_var v = true.
    Proof.
      intros Hv. apply (in_map fst) in Hv. cbn [fst] in Hv.
      destruct (@C24_bijection F NF HO st m sp k' Hh Hm E eq_refl) as (_ & _ & _ & Hk & _).
      destruct (Hk v Hv) as [Hmv|(_ & nm & ->)]; [|reflexivity].
      destruct Hmv as [Hmv|(c0 & _ & [[Hmv _]|[Hmv _]])]; [|exact Hmv|exact Hmv]. destruct (md_objective m); [exact (proj1 Hmv)|exact (proj1 Hmv)|destruct Hmv].
    Qed.
    (** The numbers of one row in the column of a variable of the model. *)
    Definition column_near (mat : coo F) (i : nat) (d : node F) (r : nat -> R) : Prop :=
      forall v j, In (v, j) (sp_var2index sp) -> (nid v < st_k st)%nat ->
        cell_derivative (real_value d) (nid v) r (dval (nid v) d r) /\
        (stored_finite mat i j -> Rabs (stored mat i j - dval (nid v) d r) <= first_error NF (nid v) r d).
    Lemma linear_row i c r : In (i, c) (sp_acons sp) ->
      exists d, diff_of c d /\ p_affine (@std_properties F NF d) = true /\ @well_built F NF d /\ (finite_constants d -> column_near A i d r).
    Proof.
      intros Hi. destruct (@C74_rows F NF HO st m sp k' Hh Hm E) as [_ HR]. destruct (HR i c Hi) as (Hin & sl & Hsl & (d0 & Hd0) & Hd).
      destruct (gives_built st m c d0 Hh Hm Hin Hd0) as (d & Gd & Bd). exists d. destruct (Hd d Gd) as (Ha & _ & Hco).
      split; [exact Gd|]. split; [exact Ha|]. split; [exact Bd|]. intros Hf v j Hv Hold.
      destruct (coef_near v r d (v2i_var v j Hv) (proj1 Bd) Hf Ha) as [G1 G2]. split; [exact G1|]. intros Hfin.
      assert (Hns : sl <> Some v) by (intros ->; destruct Hsl as (_ & _ & Hk); lia).
      destruct (stored_one A i j _ (proj2 (Hco v j Hv) Hns)) as [Q1 Q2]. rewrite Q1. unfold first_error, first_est. rewrite Ha. exact (G2 (Q2 Hfin)).
    Qed.
    Lemma absent_cell v j (d : node F) : In (v, j) (sp_var2index sp) -> (forall w, occurs w d -> model_var m w) -> ~ occurs v d -> forall w, occurs w d -> nid w <> nid v.
    Proof.
      intros Hv Ho Hn w Hw Ew. apply Hn.
      destruct (@C24_bijection F NF HO st m sp k' Hh Hm E eq_refl) as (_ & Hu & Hin & _).
      pose proof (Hin w (Ho w Hw)) as Hwi. apply in_map_iff in Hwi as ([w' i] & Ee & Hwi). cbn [fst] in Ee. subst w'.
      destruct (Hu w v i j Hwi Hv Ew) as [<- _]. exact Hw.
    Qed.
    Lemma absent_exact v j (d : node F) r : In (v, j) (sp_var2index sp) -> (forall w, occurs w d -> model_var m w) -> ~ occurs v d -> p_affine (@std_properties F NF d) = false ->
      Rabs (0 - dval (nid v) d r) <= first_error NF (nid v) r d.
    Proof.
      intros Hv Ho Hn Ha. pose proof (absent_cell v j d Hv Ho Hn) as Hc. rewrite (dval_absent _ _ _ Hc). unfold first_error, first_est, derivative_est, error_bound.
      rewrite Ha, (terms_absent _ _ Hc). rewrite Rminus_0_r, Rabs_R0. cbn. rewrite Rminus_diag_eq by reflexivity. rewrite Rmult_0_l. apply Rle_refl.
    Qed.
    Lemma diff_vars c d : In c (md_constraints m) -> diff_of c d -> forall w, occurs w d -> model_var m w.
    Proof. intros Hc (k0 & k1 & E0) w Hw. right. exists c. split; [exact Hc|]. exact (sub_nn_occurs_l w _ _ _ _ _ E0 Hw). Qed.
    Lemma min_vars e : @minimises F NF (md_objective m) e -> forall w, occurs w e -> model_var m w.
    Proof.
      intros He w Hw. left. destruct (md_objective m) as [f|f|]; cbn [minimises] in He.
      - subst e. exact Hw.
      - destruct He as (k0 & k1 & E0). exact (proj1 (@neg_n_occurs F NF w f _ _ _ eq_refl E0) Hw).
      - destruct He as (k0 & k1 & E0). unfold mk_const in E0. injection E0 as <- _. destruct (occurs_const _ _ _ Hw).
    Qed.
    Section Point.
      Variables (q : minlp F) (x : list F) (vs : vals F) (r : nat -> R).
      Hypotheses (Has : assigns sp x vs) (Hr : reads vs r).
      Definition objective_near (bf : bufs F) (e : node F) : Prop :=
        forall v j, In (v, j) (sp_var2index sp) -> (nid v < st_k st)%nat ->
          cell_derivative (real_value e) (nid v) r (dval (nid v) e r) /\
          (finiteb (nth j (b_gphi bf) (flit 0)) = true -> Rabs (float_value (nth j (b_gphi bf) (flit 0)) - dval (nid v) e r) <= first_error NF (nid v) r e).
      Lemma affine_objective bf e : @minimises F NF (md_objective m) e -> p_affine (@std_properties F NF e) = true -> @is_coefficients F NF sp e (b_gphi bf) ->
        exists e', @minimises F NF (md_objective m) e' /\ p_affine (@std_properties F NF e') = true /\ (finite_constants e' -> objective_near bf e').
      Proof.
        intros He Ha [_ Hg]. destruct (minimises_built st m e Hh Hm He) as (e' & He' & Be). exists e'. split; [exact He'|].
        pose proof (std_properties_sim _ _ (minimises_sim _ _ _ He He')) as Ep.
        assert (Ha' : p_affine (@std_properties F NF e') = true) by (rewrite <- Ha; symmetry; exact (f_equal (@p_affine F) Ep)).
        split; [exact Ha'|]. intros Hf v j Hv Hold. destruct (coef_near v r e' (v2i_var v j Hv) (proj1 Be) Hf Ha') as [G1 G2]. split; [exact G1|].
        destruct (Hg v j Hv) as (y & Ey & Hy). rewrite (nth_error_nth _ _ (flit 0) Ey). intros Hfin.
        assert (Ec : y = coefficient NF e' v) by (rewrite Hy; unfold coefficient; f_equal; exact (f_equal (fun p => match hget ptr_eq v (p_a p) with Some a => a | None => flit 0 end) Ep)).
        rewrite Ec in *. unfold first_error, first_est. rewrite Ha'. exact (G2 Hfin).
      Qed.
      Lemma near_dval v d y : @well_built F NF d -> fine fsin fcos true vs r d -> occurs v d -> @is_derivative F NF sp x d v y ->
        finiteb y = true -> Rabs (float_value y - dval (nid v) d r) <= error_bound (e_ops (derivative_est (nid v) d)) (e_mag (derivative_est (nid v) d) r).
      Proof.
        intros Bd Gd Ho Hy. destruct (derivative_near fsin fcos sp x d v y vs r Has Hr Bd Gd Ho Hy) as (D & HD & Hn).
        rewrite <- (uniqueness_limite _ _ _ _ HD (dval_derivative fsin fcos true vs (nid v) d r Gd)). exact Hn.
      Qed.
      Lemma nonlinear_objective bf e : @minimises F NF (md_objective m) e -> @well_built F NF e -> p_affine (@std_properties F NF e) = false -> @is_gradient F NF sp x e (b_gphi bf) ->
        finite_constants e -> safe_quotients NF true vs r e -> objective_near bf e.
      Proof.
        intros He Be Ha [_ Hg] Hf Hs v j Hv Hold. pose proof (safe_fine fsin fcos true vs r e Hsin Hcos Hf Hs) as Ge.
        split; [exact (dval_derivative fsin fcos true vs (nid v) e r Ge)|]. destruct (Hg v j Hv) as (y & Ey & Hd & Hz).
        rewrite (nth_error_nth _ _ (flit 0) Ey). intros Hfin. destruct (is_var_dec v e) as [Ho|Ho].
        - unfold first_error, first_est. rewrite Ha. exact (near_dval v e y Be Ge Ho (Hd Ho) Hfin).
        - rewrite (Hz Ho). change (@n0 F NF) with (flit 0). rewrite float_value_fval, fval_flit0. exact (absent_exact v j e r Hv (min_vars e He) Ho Ha).
      Qed.
      Lemma nonlinear_row bf i c : In c (md_constraints m) -> (exists sl, own_slack (st_k st) sp c sl /\ @row_values F NF sp x c sl i bf) ->
        exists d, diff_of c d /\ p_affine (@std_properties F NF d) = false /\ @well_built F NF d /\ (finite_constants d -> safe_quotients NF true vs r d -> column_near (b_j bf) i d r).
      Proof.
        intros Hin (sl & Hsl & [_ (d & h & Gd & _ & Bd & Ha & Hj & _)]). exists d. split; [exact Gd|]. split; [exact Ha|]. split; [exact Bd|].
        intros Hf Hs v j Hv Hold. pose proof (safe_fine fsin fcos true vs r d Hsin Hcos Hf Hs) as Fd.
        split; [exact (dval_derivative fsin fcos true vs (nid v) d r Fd)|]. intros Hfin. destruct (Hj v j Hv) as (H1 & _ & H3).
        assert (Hns : sl <> Some v) by (intros ->; destruct Hsl as (_ & _ & Hk); lia).
        destruct (is_var_dec v d) as [Ho|Ho].
        - destruct (H1 Ho) as (y & Ey & Hy). destruct (stored_one (b_j bf) i j (Some y) Ey) as [Q1 Q2]. rewrite Q1. unfold first_error, first_est. rewrite Ha.
          exact (near_dval v d y Bd Fd Ho Hy (Q2 Hfin)).
        - destruct (stored_one (b_j bf) i j None (H3 Ho Hns)) as [Q1 _]. rewrite Q1, float_value_fval, fval_flit0. exact (absent_exact v j d r Hv (diff_vars c d Hin Gd) Ho Ha).
      Qed.
      Lemma no_rows : class_of (sp_prob sp) = ClLp \/ class_of (sp_prob sp) = ClMilp -> sp_jcons sp = [].
      Proof.
        intros Hcl. destruct (hist_run st m sp k' Hh Hm E) as (S & obj & S' & eo & ke & ko & ps & ar & jr & uc & lc & Hi & Mi & HW & Em & R & Esp & _).
        destruct (sr_rows _ _ _ _ _ _ _ _ _ _ _ _ _ R) as [_ _ _ _ R5 _ _].
        assert (Hl : p_linear obj (cat ps) = true).
        { rewrite Esp in Hcl. cbn [sp_prob] in Hcl. unfold p_problem in Hcl.
          destruct (p_linear obj (cat ps)); [reflexivity|]. destruct (no_int k' obj (cat ps)); destruct Hcl; discriminate. }
        unfold p_linear in Hl. apply andb_true_iff in Hl as [_ Hl]. apply Nat.eqb_eq in Hl. rewrite Hl in R5.
        assert (Ej : length (sp_jcons sp) = 0%nat) by (rewrite Esp; cbn [sp_jcons]; rewrite <- (map_length fst), enum_fst, seq_length; exact R5).
        destruct (sp_jcons sp); [reflexivity|discriminate].
      Qed.
      Definition ready (d : node F) : Prop := finite_constants d /\ (p_affine (@std_properties F NF d) = false -> safe_quotients NF true vs r d).
      Lemma evaluated : @evolves F NF (base_of (sp_prob sp)) q -> length x = m_nx (base_of (sp_prob sp)) ->
        exists q2 e dj, minlp_evaluate q x = Ok q2 /\ @minimises F NF (md_objective m) e /\ (ready e -> objective_near (m_bufs q2) e) /\
          Forall2 (fun ic d => diff_of (snd ic) d /\ (ready d -> column_near (b_j (m_bufs q2)) (fst ic) d r)) (sp_jcons sp) dj /\
          map fst (sp_jcons sp) = seq 0 (length (b_f (m_bufs q2))).
      Proof.
        intros Hev Hx.
        assert (Hcl : (class_of (sp_prob sp) = ClLp \/ class_of (sp_prob sp) = ClMilp) \/ (class_of (sp_prob sp) = ClNlp \/ class_of (sp_prob sp) = ClMinlp))
          by (destruct (class_of (sp_prob sp)); tauto).
        destruct Hcl as [Hcl|Hcl].
        - destruct (@C74_linear F NF HO st m sp k' Hh Hm E q x Hcl Hev Hx) as (q2 & e & Eq & He & Ha & Hg & _ & _ & Hf & _).
          destruct (affine_objective (m_bufs q2) e He Ha Hg) as (e' & He' & _ & Ho). exists q2, e', []. rewrite (no_rows Hcl), Hf.
          split; [exact Eq|]. split; [exact He'|]. split; [intros [Hc _]; exact (Ho Hc)|]. split; [constructor|reflexivity].
        - destruct (@C74_nonlinear F NF HO st m sp k' eq_refl Hh Hm E q x Hcl Hev Hx) as (q2 & Eq & [_ (e & He & Be & Hob)] & Hseq & _ & Hrows).
          assert (Hob' : exists e', @minimises F NF (md_objective m) e' /\ (ready e' -> objective_near (m_bufs q2) e')).
          { destruct (p_affine (@std_properties F NF e)) eqn:Ha.
            - destruct Hob as [Hg _]. destruct (affine_objective (m_bufs q2) e He Ha Hg) as (e' & He' & _ & Ho). exists e'. split; [exact He'|]. intros [Hc _]. exact (Ho Hc).
            - destruct Hob as [Hg _]. exists e. split; [exact He|]. intros [Hc Hs]. exact (nonlinear_objective (m_bufs q2) e He Be Ha Hg Hc (Hs Ha)). }
          destruct Hob' as (e' & He' & Ho).
          destruct (choose (fun ic d => diff_of (snd ic) d /\ (ready d -> column_near (b_j (m_bufs q2)) (fst ic) d r)) (sp_jcons sp)) as (dj & Hdj).
          { intros [i c] Hi. cbn [fst snd]. destruct (Hrows i c Hi) as [Hin Hrow]. destruct (nonlinear_row (m_bufs q2) i c Hin Hrow) as (d & Gd & Ha & _ & Hc).
            exists d. split; [exact Gd|]. intros [H1 H2]. exact (Hc H1 (H2 Ha)). }
          exists q2, e', dj. auto.
      Qed.
      Lemma F2_and {X Y} (P Q : X -> Y -> Prop) l l' : Forall2 (fun a b => P a b /\ Q a b) l l' -> Forall2 P l l' /\ Forall2 Q l l'.
      Proof. intros G. induction G as [|a b l l' [A1 A2] _ [B1 B2]]; split; constructor; assumption. Qed.
      Lemma F2_weak {X Y} (P Q : X -> Y -> Prop) l l' : (forall a b, In b l' -> P a b -> Q a b) -> Forall2 P l l' -> Forall2 Q l l'.
      Proof. intros Hi G. induction G as [|a b l l' A1 _ B1]; constructor; [apply Hi; [left; reflexivity|exact A1]|]. apply B1. intros a' b' Hb. apply Hi. right. exact Hb. Qed.
      Lemma F2_map {X Y} (P : X -> Y -> Prop) (f : X -> Y) l : Forall (fun a => P a (f a)) l -> Forall2 P l (map f l).
      Proof. intros G. induction G; cbn; constructor; assumption. Qed.
      Lemma F2_right {X Y} (P : Y -> Prop) (l : list X) l' : Forall2 (fun _ b => P b) l l' -> Forall P l'.
      Proof. intros G. induction G; constructor; assumption. Qed.
      (** ** C82 First-order conditions up to rounding: component [j] of
            grad phi - A^T lam - J^T nu + mu - pi   with the numbers the code makes differs from the
          same component with the derivatives of the expressions of the model by at most the bound
          computed from the expressions and the multipliers. *)
      Theorem C82_first_order : @evolves F NF (base_of (sp_prob sp)) q -> length x = m_nx (base_of (sp_prob sp)) ->
        exists q2 e da dj, minlp_evaluate q x = Ok q2 /\ @minimises F NF (md_objective m) e /\
          Forall2 (fun ic d => diff_of (snd ic) d) (sp_acons sp) da /\ Forall2 (fun ic d => diff_of (snd ic) d) (sp_jcons sp) dj /\
          (Forall finite_constants (e :: da ++ dj) -> Forall (fun d => p_affine (@std_properties F NF d) = false -> safe_quotients NF true vs r d) (e :: dj) ->
           forall v j, In (v, j) (sp_var2index sp) -> (nid v < st_k st)%nat ->
             exists d0 Da Dj, cell_derivative (real_value e) (nid v) r d0 /\
               Forall2 (fun d D => cell_derivative (real_value d) (nid v) r D) da Da /\
               Forall2 (fun d D => cell_derivative (real_value d) (nid v) r D) dj Dj /\
               (column_finite A (m_bufs q2) j -> forall lam nu mu pi,
                  Rabs (told_residual A (m_b (base_of (sp_prob sp))) (m_bufs q2) lam nu mu pi j - model_residual d0 Da Dj lam nu mu pi j)
                  <= first_error NF (nid v) r e + weighted_error lam (map (first_error NF (nid v) r) da) + weighted_error nu (map (first_error NF (nid v) r) dj))).
      Proof.
        intros Hev Hx. destruct (evaluated Hev Hx) as (q2 & e & dj & Eq & He & Ho & Hj & Hseq).
        destruct (@C74_rows F NF HO st m sp k' Hh Hm E) as [Hsa _].
        destruct (choose (fun ic d => diff_of (snd ic) d /\ (finite_constants d -> column_near A (fst ic) d r)) (sp_acons sp)) as (da & Hda).
        { intros [i c] Hi. cbn [fst snd]. destruct (linear_row i c r Hi) as (d & Gd & _ & _ & Hc). exists d. split; [exact Gd|exact Hc]. }
        exists q2, e, da, dj. apply F2_and in Hj as [Hj1 Hj2]. apply F2_and in Hda as [Ha1 Ha2].
        split; [exact Eq|]. split; [exact He|]. split; [exact Ha1|]. split; [exact Hj1|].
        intros Hfc Hsq v j Hv Hold. inversion Hfc as [|? ? Fe Frest]; subst. apply Forall_app in Frest as [Fa Fj]. inversion Hsq as [|? ? Se Sj]; subst.
        rewrite Forall_forall in Fa, Fj, Sj.
        apply (F2_weak _ (fun ic d => column_near A (fst ic) d r)) in Ha2; [|intros ic d Hd G; exact (G (Fa d Hd))].
        apply (F2_weak _ (fun ic d => column_near (b_j (m_bufs q2)) (fst ic) d r)) in Hj2; [|intros ic d Hd G; exact (G (conj (Fj d Hd) (Sj d Hd)))].
        destruct (Ho (conj Fe Se) v j Hv Hold) as [Ho1 Ho2].
        exists (dval (nid v) e r), (map (fun d => dval (nid v) d r) da), (map (fun d => dval (nid v) d r) dj).
        split; [exact Ho1|]. split; [|split].
        - apply F2_map. apply F2_right with (l := sp_acons sp). revert Ha2. apply F2_weak. intros ic d _ G. exact (proj1 (G v j Hv Hold)).
        - apply F2_map. apply F2_right with (l := sp_jcons sp). revert Hj2. apply F2_weak. intros ic d _ G. exact (proj1 (G v j Hv Hold)).
        - intros (C1 & C2 & C3) lam nu mu pi. unfold told_residual, model_residual.
          pose proof (Ho2 C1) as B1.
          assert (B2 := weighted_close (fun i => stored A i j) (fun d => dval (nid v) d r) (first_error NF (nid v) r) (sp_acons sp) da
                    (F2_weak (fun ic d => column_near _ (fst ic) d r) _ _ _ (fun ic d _ (G : column_near _ (fst ic) d r) => proj2 (G v j Hv Hold) (C2 (fst ic))) Ha2) 0%nat _ lam Hsa).
          assert (B3 := weighted_close (fun i => stored (b_j (m_bufs q2)) i j) (fun d => dval (nid v) d r) (first_error NF (nid v) r) (sp_jcons sp) dj
                    (F2_weak (fun ic d => column_near _ (fst ic) d r) _ _ _ (fun ic d _ (G : column_near _ (fst ic) d r) => proj2 (G v j Hv Hold) (C3 (fst ic))) Hj2) 0%nat _ nu Hseq).
          revert B1 B2 B3. generalize (weighted_error lam (map (first_error NF (nid v) r) da)) (weighted_error nu (map (first_error NF (nid v) r) dj)) (first_error NF (nid v) r e).
          intros w1 w2 w3. generalize (float_value (nth j (b_gphi (m_bufs q2)) (flit 0))) (dval (nid v) e r).
          match goal with |- forall a b, _ -> Rabs (?s1 - ?s2) <= _ -> Rabs (?s3 - ?s4) <= _ -> _ => generalize s1 s2 s3 s4 end.
          clear. intros s1 s2 s3 s4 g0 d0 B1 B2 B3. apply Rabs_le_inv in B1. apply Rabs_le_inv in B2. apply Rabs_le_inv in B3. apply Rabs_le. lra.
      Qed.
    End Point.
  End Model.
End C82.

(** minimise x*x  subject to  x*0.1/3 + y*7 == 1,  x*y == 2,  at x = 1 and y = 3. *)
Section Ex82.
  Local Open Scope string_scope.
  Notation NM := (NumF (machine sin) (machine cos)).
  Definition c82_prog : list (call F) :=
    [CExpr (OVar "x" VarContinuous); CExpr (OVar "y" VarContinuous); CExpr (OMulNN 0 0); CExpr (OMulNS 0 tenth); CExpr (ODivNS 3 (flit 3)); CExpr (OMulNS 1 (flit 7)); CExpr (OAddNN 4 5); CExpr (OMulNN 0 1);
     CCmpNS 6 Equal (flit 1) ""; CCmpNS 7 Equal (flit 2) ""; CNewModel; CSetObj 0 Minimise 2; CAddConstrs 0 [0; 1]%nat].
  Definition c82_obj : node F := NMul 2 c74_x c74_x.
  Definition c82_lhs : node F := NAdd 9 [NDiv 6 (NMul 4 c74_x (NConst 3 tenth)) (NConst 5 (flit 3)); NMul 8 c74_y (NConst 7 (flit 7))].
  Definition c82_cons : list (constraint F) :=
    [{| cid := 12; clhs := c82_lhs; ckd := Equal; crhs := NConst 11 (flit 1); clabel := "" |};
     {| cid := 14; clhs := NMul 10 c74_x c74_y; ckd := Equal; crhs := NConst 13 (flit 2); clabel := "" |}].
  Definition c82_point : list F := [flit 1; flit 3].
  Definition c82_ready (d : node F) : Prop := finite_constants d /\ (p_affine (@std_properties F NM d) = false -> safe_quotients NM true c76_vals c76_r d).
  (** The number stored for x in the linear row: 0.1 / 3 rounded. *)
  Definition c82_a : F := SFdiv 53 1024 tenth (flit 3).
  Example C82_example : exists (st : mstate F) m sp k' q2,
    accurate (machine sin) sin /\ accurate (machine cos) cos /\
    @hist F NM any_op st /\ In m (st_models st) /\ @std_problem F NM ord_id m (st_k st) = Ok (sp, k') /\
    length c82_point = m_nx (base_of (sp_prob sp)) /\ assigns sp c82_point c76_vals /\ reads c76_vals c76_r /\
    minlp_evaluate (base_of (sp_prob sp)) c82_point = Ok q2 /\ In (c74_x, 0%nat) (sp_var2index sp) /\ (nid c74_x < st_k st)%nat /\
    (forall e, @minimises F NM (md_objective m) e -> c82_ready e) /\
    (forall c d, In c (md_constraints m) -> gives (@sub_nn F NM (clhs c) (crhs c)) d -> c82_ready d) /\
    sp_acons sp = combine [0%nat] (firstn 1 c82_cons) /\ sp_jcons sp = combine [0%nat] (skipn 1 c82_cons) /\
    column_finite (m_a (base_of (sp_prob sp))) (m_bufs q2) 0 /\
    coefficient NM c82_lhs c74_x = c82_a /\ e_ops (coefficient_est 0 c82_lhs) = 5%nat.
  Proof.
    assert (C : match @mrun F NM ord_id c82_prog mstart with
                | Some st => match st_models st with
                  | [m] => st_k st = 15%nat /\ md_objective m = Minimize c82_obj /\ md_constraints m = c82_cons /\
                    match @std_problem F NM ord_id m (st_k st) with
                    | Ok (sp, _) => m_nx (base_of (sp_prob sp)) = 2%nat /\ sp_var2index sp = [(c74_x, 0%nat); (c74_y, 1%nat)] /\
                        sp_acons sp = combine [0%nat] (firstn 1 c82_cons) /\ sp_jcons sp = combine [0%nat] (skipn 1 c82_cons) /\
                        entries (m_a (base_of (sp_prob sp))) = [(0%nat, 0%nat, c82_a); (0%nat, 1%nat, flit 7)] /\
                        match minlp_evaluate (base_of (sp_prob sp)) c82_point with
                        | Ok q => b_gphi (m_bufs q) = [flit 2; flit 0] /\ entries (b_j (m_bufs q)) = [(0%nat, 0%nat, flit 3); (0%nat, 1%nat, flit 1)]
                        | Panic _ => False end
                    | Panic _ => False end
                  | _ => False end
                | None => False end) by (vm_compute; repeat split).
    destruct (@mrun F NM ord_id c82_prog mstart) as [st|] eqn:E; [|destruct C].
    destruct (st_models st) as [|m [|]] eqn:Em; try (destruct C; fail). destruct C as (K & C0 & C1 & C).
    destruct (@std_problem F NM ord_id m (st_k st)) as [[sp k']|] eqn:Es; [|destruct C].
    destruct C as (C2 & C3 & C4 & C5 & C6 & C7).
    destruct (minlp_evaluate (base_of (sp_prob sp)) c82_point) as [q2|] eqn:Eq; [|destruct C7]. destruct C7 as [C7 C8].
    exists st, m, sp, k', q2. destruct C76_accurate as [A1 A2]. split; [exact A1|]. split; [exact A2|].
    split; [eapply (@mrun_hist F NM ord_id c82_prog mstart); [constructor|exact E]|].
    split; [rewrite Em; left; reflexivity|]. split; [exact Es|]. split; [rewrite C2; reflexivity|].
    split.
    { intros v i Hv. rewrite C3 in Hv. destruct Hv as [Hv|[Hv|[]]]; injection Hv as <- <-; eexists; split; reflexivity. }
    split.
    { intros v x Hv Hg. destruct v as [i c|i s kd|i l|i a|i a b|i a b|i a]; try discriminate Hv. unfold c76_vals, c74_x, c74_y in Hg. cbn [hget ptr_eq] in Hg.
      destruct (Nat.eqb i 0) eqn:Ei; [|destruct (Nat.eqb i 1) eqn:Ei1; [|discriminate Hg]].
      - apply Nat.eqb_eq in Ei. assert (Ex : x = flit 1) by congruence. rewrite Ex, Ei. split; [vm_compute; reflexivity|reflexivity].
      - apply Nat.eqb_eq in Ei1. assert (Ex : x = flit 3) by congruence. rewrite Ex, Ei1. split; [vm_compute; reflexivity|reflexivity]. }
    split; [exact Eq|]. split; [rewrite C3; left; reflexivity|]. split; [rewrite K; cbn; lia|].
    split.
    { rewrite C0. cbn [minimises]. intros e ->. split; [|intros _; repeat split]. intros i v Hs. unfold c82_obj, c74_x in Hs.
      repeat match goal with
      | Hs : sub _ (NVar _ _ _) |- _ => inversion Hs; clear Hs; subst
      | Hs : sub _ (NMul _ _ _) |- _ => inversion Hs; clear Hs; subst
      | Hi : In _ _ |- _ => cbn [arguments In] in Hi
      | Hi : _ \/ _ |- _ => destruct Hi as [<-|Hi]
      | Hi : False |- _ => destruct Hi
      end. }
    split.
    { rewrite C1. intros c d Hc (k0 & k1 & E0). unfold c82_cons in Hc. destruct Hc as [<-|[<-|[]]]; cbn [clhs crhs] in E0.
      - assert (Ed : d = NAdd (Datatypes.S (Datatypes.S k0)) [NDiv 6 (NMul 4 c74_x (NConst 3 tenth)) (NConst 5 (flit 3)); NMul 8 c74_y (NConst 7 (flit 7)); NConst (Datatypes.S k0) (flit (-1))])
          by (vm_compute in E0; injection E0 as <- _; vm_compute; reflexivity).
        rewrite Ed. split; [|intros _; repeat split]. intros i v Hs. unfold c74_x, c74_y in Hs.
        repeat match goal with
        | Hs : sub _ (NVar _ _ _) |- _ => inversion Hs; clear Hs; subst
        | Hs : sub _ (NConst _ _) |- _ => inversion Hs; clear Hs; subst
        | Hs : sub _ (NMul _ _ _) |- _ => inversion Hs; clear Hs; subst
        | Hs : sub _ (NDiv _ _ _) |- _ => inversion Hs; clear Hs; subst
        | Hs : sub _ (NAdd _ _) |- _ => inversion Hs; clear Hs; subst
        | Hi : In _ _ |- _ => cbn [arguments In] in Hi
        | Hi : _ \/ _ |- _ => destruct Hi as [<-|Hi]
        | Hi : False |- _ => destruct Hi
        end; (split; [vm_compute; reflexivity|reflexivity]).
      - assert (Ed : d = NAdd (Datatypes.S (Datatypes.S k0)) [NMul 10 c74_x c74_y; NConst (Datatypes.S k0) (flit (-2))])
          by (vm_compute in E0; injection E0 as <- _; vm_compute; reflexivity).
        rewrite Ed. split; [|intros _; repeat split]. intros i v Hs. unfold c74_x, c74_y in Hs.
        repeat match goal with
        | Hs : sub _ (NVar _ _ _) |- _ => inversion Hs; clear Hs; subst
        | Hs : sub _ (NConst _ _) |- _ => inversion Hs; clear Hs; subst
        | Hs : sub _ (NMul _ _ _) |- _ => inversion Hs; clear Hs; subst
        | Hs : sub _ (NAdd _ _) |- _ => inversion Hs; clear Hs; subst
        | Hi : In _ _ |- _ => cbn [arguments In] in Hi
        | Hi : _ \/ _ |- _ => destruct Hi as [<-|Hi]
        | Hi : False |- _ => destruct Hi
        end; (split; [vm_compute; reflexivity|reflexivity]). }
    split; [exact C4|]. split; [exact C5|]. split.
    { unfold column_finite, stored_finite, at_pos. rewrite C6, C7, C8. split; [reflexivity|].
      split; intros [|i]; cbn; repeat constructor. }
    split; [vm_compute; reflexivity|reflexivity].
  Qed.
End Ex82.
