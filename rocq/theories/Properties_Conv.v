(** Property C86: a solved convex model is optimal, up to the tolerances of the solver and rounding,
    in binary64. *)
From Verif Require Import Base Num Node NodeInd NodeDiff NodeStd Constraint Matrix Problem ModelStd Model
     ExprSpec World Sim MapProofs StdPropProofs EvalProofs GradProofs MatSpec MatrixProofs ProblemProofs PartsProofs BuildProofs BuildMain ModelSpec EvalRun StdFacts
     Api ApiProofs ModelApi StdMain HistProofs OccProofs ConstrEquiv Properties_Constr Properties_Std ModelExample SolveProofs Properties_Solve TextSpec ExactSpec RoundSpec FmtProofs FloatProofs FloatOps RoundOps RoundProofs Properties_Text Properties_Exact Properties_Round
     NoFun RoundCoef CoefSpec CoefProofs Properties_Coef PostProofs HashProofs PolySpec PolyProofs BitSpec BitProofs Properties_Bit DerEstSpec DerEstProofs Properties_DerEst Properties_Full PlaceSpec SlotAny Properties_Place KktSpec KktProofs AffSpec Properties_Aff LagSpec Properties_Lag TolSpec SlackSpec Properties_Slack ConvSpec.
From Coq Require Import Reals Lra Lia Classical_Prop Floats.SpecFloat.
From Flocq Require Import Core.
Import RoundSpec.
Local Open Scope R_scope.

Lemma total_exchange {A B} (f : A -> B -> R) (L : list A) (l : list B) :
  total (map (fun a => total (map (fun b => f a b) l)) L) = total (map (fun b => total (map (fun a => f a b) L)) l).
Proof.
  induction L as [|a L IH]; cbn [map].
  - rewrite total_zero; [reflexivity|]. intros; reflexivity.
  - rewrite total_cons, IH, <- total_plus. apply total_ext. intros b _. reflexivity.
Qed.
Lemma F2_in {A B} (P Q : A -> B -> Prop) l l' : (forall a b, In a l -> P a b -> Q a b) -> Forall2 P l l' -> Forall2 Q l l'.
Proof. intros H G. induction G as [|a b l l' H1 _ IH]; constructor; [apply H; [left; reflexivity|exact H1]|]. apply IH. intros a' b' Ha. apply H. right. exact Ha. Qed.
(** One constraint: the multiplier times the slope. *)
Lemma gap_le y eta s dr dz : 0 <= eta -> - eta <= y -> dz <= 0 -> dr + s <= dz -> - (Rabs (y * dr) + eta * Rabs s) <= - (y * s).
Proof.
  intros He Hy Hz Hs. assert (E0 : 0 <= eta * Rabs s) by (apply Rmult_le_pos; [exact He|apply Rabs_pos]).
  pose proof (Rle_abs (- (y * dr))) as P2. rewrite Rabs_Ropp in P2. destruct (Rle_dec 0 y) as [H0|H0].
  - assert (G : y * (s + dr) <= y * 0) by (apply Rmult_le_compat_l; lra). lra.
  - pose proof (Rabs_pos (y * dr)) as P0. pose proof (Rle_abs (y * s)) as P1. rewrite Rabs_mult, (Rabs_left1 y) in P1 by lra.
    assert (G : - y * Rabs s <= eta * Rabs s) by (apply Rmult_le_compat_r; [apply Rabs_pos|lra]). lra.
Qed.
Lemma one_gap kd y eta s dr dz : 0 <= eta -> (kd <> Equal -> - eta <= y) -> to_zero kd dz ->
  match kd with Equal => dz = dr + s | LessEqual => dr + s <= dz | GreaterEqual => dz <= dr + s end ->
  - (Rabs (y * dr) + match kd with Equal => 0 | _ => eta end * Rabs s) <= signed kd y * s.
Proof.
  intros He Hy Hz Hs. destruct kd; cbn [signed to_zero] in *.
  - replace (y * s) with (- (y * dr)) by (replace s with (- dr) by lra; ring).
    pose proof (Rle_abs (y * dr)). lra.
  - pose proof (gap_le y eta s dr dz He (Hy ltac:(discriminate)) Hz Hs). lra.
  - pose proof (gap_le y eta (- s) (- dr) (- dz) He (Hy ltac:(discriminate)) ltac:(lra) ltac:(lra)) as G.
    rewrite Rabs_Ropp in G. replace (y * - dr) with (- (y * dr)) in G by ring. rewrite Rabs_Ropp in G. lra.
Qed.

Section C86.
  Variables fsin fcos : F -> F.
  Notation NF := (NumF fsin fcos).
  Local Instance num_f : Num F := NF.
  Hypotheses (Hsin : accurate fsin sin) (Hcos : accurate fcos cos).

  (** ** C86 After a solve whose solver answers with a point and multipliers that satisfy, up to
      tolerances, the first-order conditions of the numbers it was given, no point [z] that satisfies
      the constraints of the model, and at which its functions are on the right side of their
      tangents (every [z] if the model is convex), has a much smaller objective. *)
  Theorem C86_optimal (HO : HashOrd) (st : mstate F) solver m m' k' :
    @hist F NF any_op st -> In m (st_models st) -> @solve F NF HO solver m (st_k st) = (m', Returned (inl tt), k') -> NoDup (map cid (md_constraints m)) ->
    exists sp stat s, @std_problem F NF HO m (st_k st) = Ok (sp, k') /\ solver (sp_prob sp) = Ok (inl (stat, s)) /\
    forall eps tau eta delta r, near_stationary NF eps tau sp s -> near_complementary eta delta sp s -> 0 <= tau -> 0 <= eta -> 0 <= delta -> reads (md_primals m') r ->
      exists e ds, @minimises F NF (md_objective m) e /\ Forall2 (fun c d => gives (@sub_nn F NF (clhs c) (crhs c)) d) (md_constraints m) ds /\
        (Forall finite_constants (e :: ds) ->
         Forall (fun d => p_affine (@std_properties F NF d) = false -> safe_quotients NF true (md_primals m') r d) (e :: ds) ->
         forall L g Ds z, (forall c, In c L <-> exists v, model_var m v /\ nid v = c) ->
           derivatives_at m (real_value e) g r -> Forall2 (fun d D => derivatives_at m (real_value d) D r) ds Ds ->
           real_value e r + slope L g r z <= real_value e z ->
           Forall2 (fun c dD => on_side (ckd c) L (real_value (fst dD)) (snd dD) r z /\ to_zero (ckd c) (real_value (fst dD) z)) (md_constraints m) (combine ds Ds) ->
           real_value e r <= real_value e z
             + total (map (fun c => column_error NF eps tau m' (md_constraints m) e ds Ds r c * Rabs (z c - r c)) L)
             + total (map (gap_share eta L r z m') (combine (md_constraints m) (combine ds Ds)))).
  Proof.
    intros Hh Hm Es Hnd. destruct (C83_first_order fsin fcos Hsin Hcos HO st solver m m' k' Hh Hm Es Hnd) as (sp & stat & s & Esp & Eso & H83).
    destruct (C84_complementary fsin fcos Hsin Hcos HO st solver m m' k' Hh Hm Es Hnd) as (sp0 & stat0 & s0 & Esp0 & Eso0 & H84).
    assert (Ep : sp0 = sp) by congruence. subst sp0. assert (Ess : s0 = s) by congruence. subst s0.
    exists sp, stat, s. split; [exact Esp|]. split; [exact Eso|]. intros eps tau eta delta r Hns Hnc Htau Heta Hdel Hr.
    destruct (H83 eps tau r Hns Htau Hr) as (e & ds & He & Hds & Hfirst). exists e, ds. split; [exact He|]. split; [exact Hds|].
    intros Hfc Hsq L g Ds z HL Hg HD Hconv Hside.
    (* the first-order condition with the given derivatives *)
    assert (Hcol : forall c, In c L -> Rabs (g c - combination m' (md_constraints m) (map (fun D => D c) Ds)) <= column_error NF eps tau m' (md_constraints m) e ds Ds r c).
    { intros c Hc. apply HL in Hc as (v & Hv & <-). destruct (Hfirst Hfc Hsq v Hv) as (g0 & Ds0 & H1 & H2 & H3).
      assert (Eg : g0 = g (nid v)) by exact (cell_derivative_unique _ _ _ _ _ H1 (Hg v Hv)).
      assert (Ed : Ds0 = map (fun D => D (nid v)) Ds).
      { clear -H2 HD Hv. revert Ds0 H2. induction HD as [|d D ds Ds H1 HD IH]; intros Ds0 H2; inversion H2; subst; [reflexivity|]. cbn [map]. f_equal; [|apply IH; assumption].
        eapply cell_derivative_unique; [eassumption|]. exact (H1 v Hv). }
      rewrite <- Eg, <- Ed. unfold column_error. rewrite <- Ed. exact H3. }
    assert (H84' : forall c, In c (md_constraints m) -> ckd c <> Equal -> - eta <= recorded_dual m' c) by (intros c Hc Hk; exact (proj1 (H84 eta delta r Hnc Hdel Hr c Hc Hk))).
    set (CB := combine (md_constraints m) (combine ds Ds)).
    (* the sum of the columns is the sum over the constraints *)
    assert (Hex : total (map (fun c => combination m' (md_constraints m) (map (fun D => D c) Ds) * (z c - r c)) L)
                  = total (map (fun x => signed (ckd (fst x)) (recorded_dual m' (fst x)) * slope L (snd (snd x)) r z) CB)).
    { assert (E1 : forall c, combination m' (md_constraints m) (map (fun D => D c) Ds) * (z c - r c)
                   = total (map (fun x => signed (ckd (fst x)) (recorded_dual m' (fst x)) * snd (snd x) c * (z c - r c)) CB)).
      { intros c. unfold combination, CB. clear -Hds HD. revert Ds HD. induction Hds as [|c0 d cs ds H1 Hds IH]; intros Ds HD; inversion HD; subst; cbn [combine map]; [unfold total; cbn [fold_right]; ring|].
        rewrite !total_cons, Rmult_plus_distr_r, IH by assumption. reflexivity. }
      rewrite (total_ext _ _ L (fun c _ => E1 c)), total_exchange. apply total_ext. intros x _. unfold slope. rewrite <- total_scal. apply total_ext. intros c _. ring. }
    assert (Hgap : - total (map (gap_share eta L r z m') CB) <= total (map (fun x => signed (ckd (fst x)) (recorded_dual m' (fst x)) * slope L (snd (snd x)) r z) CB)).
    { rewrite <- total_opp. apply total_le. intros [c [d D]] Hin. cbn [fst snd gap_share]. unfold bound_slop.
      assert (Hc : In c (md_constraints m)) by exact (in_combine_l _ _ _ _ Hin).
      destruct (in_combine_F2 _ _ _ _ _ Hside Hin) as [Q1 Q2]. cbn [fst snd] in Q1, Q2.
      exact (one_gap (ckd c) _ eta _ _ _ Heta (H84' c Hc) Q2 Q1). }
    assert (Hslope : total (map (fun c => combination m' (md_constraints m) (map (fun D => D c) Ds) * (z c - r c)) L)
                     - total (map (fun c => column_error NF eps tau m' (md_constraints m) e ds Ds r c * Rabs (z c - r c)) L) <= slope L g r z).
    { unfold slope. rewrite <- total_minus. apply total_le. intros c Hc.
      pose proof (Hcol c Hc) as G. pose proof (Rmult_le_compat_r _ _ _ (Rabs_pos (z c - r c)) G) as G2. rewrite <- Rabs_mult in G2.
      apply Rabs_le_inv in G2. lra. }
    rewrite Hex in Hslope. fold CB. lra.
  Qed.

  (** The derivatives of an affine expression are the same everywhere. *)
  Lemma affine_dval c (r z : nat -> R) (n : node F) : @ExprSpec.canonical F NF n -> p_affine (@std_properties F NF n) = true -> dval c n r = dval c n z.
  Proof.
    induction n as [i w|i st kd|i args IH|i a IH|i a b IHa IHb|i a b IHa IHb|i a IH] using node_ind'; intros Hc Ha; try discriminate Ha; try reflexivity.
    - pose proof (affine_args fsin fcos _ _ Ha) as Hl. cbn [dval].
      assert (G : Forall (fun a => dval c a r = dval c a z) args).
      { rewrite Forall_forall in *. intros a Hin. apply IH; [exact Hin|exact (can_arg fsin fcos a _ Hc Hin)|exact (Hl a Hin)]. }
      clear -G. induction G as [|a l Ha _ IH]; cbn [fold_right]; [reflexivity|]. rewrite Ha, IH. reflexivity.
    - destruct (affine_div fsin fcos _ _ _ Hc Ha) as [(j & v & ->) Hx]. cbn [dval].
      rewrite (IHa (can_arg fsin fcos a _ Hc (or_introl eq_refl)) Hx). reflexivity.
    - destruct (affine_mul fsin fcos _ _ _ Hc Ha) as [[(j & v & ->) Hx]|[(j & v & ->) Hx]]; cbn [dval real_value].
      + rewrite (IHb (can_arg fsin fcos b _ Hc (or_intror (or_introl eq_refl))) Hx). ring.
      + rewrite (IHa (can_arg fsin fcos a _ Hc (or_introl eq_refl)) Hx). ring.
  Qed.
  Lemma affine_tangent (m : model F) (d : node F) L D r z :
    @ExprSpec.canonical F NF d -> finite_constants d -> p_affine (@std_properties F NF d) = true ->
    NoDup L -> (forall v, occurs v d -> In (nid v) L) -> (forall c, In c L <-> exists v, model_var m v /\ nid v = c) ->
    derivatives_at m (real_value d) D r ->
    real_value d z = real_value d r + slope L D r z.
  Proof.
    intros Hc Hf Ha Hnd Ho HL HD.
    rewrite (affine_real fsin fcos L z d Hnd Ho Hc Ha), (affine_real fsin fcos L r d Hnd Ho Hc Ha). unfold slope.
    rewrite Rplus_assoc, <- total_plus. f_equal. apply total_ext. intros c Hin.
    assert (E : D c = dval c d r).
    { apply HL in Hin as (v & Hv & <-). apply (cell_derivative_unique _ _ _ _ _ (HD v Hv)).
      apply (dval_derivative fsin fcos false []). apply arith_fine. exact (proj1 (affine_arith fsin fcos d Hc Hf Ha)). }
    rewrite (affine_dval c z r d Hc Ha), E. ring.
  Qed.
  (** ** C86, affine parts: an affine expression of the model is its tangent, at every point, so it
      is on the side that C86_optimal asks for whatever its relation. *)
  Theorem C86_affine (m : model F) (d : node F) kd L D r z :
    @well_built F NF d -> finite_constants d -> p_affine (@std_properties F NF d) = true ->
    NoDup L -> (forall v, occurs v d -> In (nid v) L) -> (forall c, In c L <-> exists v, model_var m v /\ nid v = c) ->
    derivatives_at m (real_value d) D r ->
    real_value d z = real_value d r + slope L D r z /\ on_side kd L (real_value d) D r z.
  Proof.
    intros [Hc _] Hf Ha Hnd Ho HL HD. pose proof (affine_tangent m d L D r z Hc Hf Ha Hnd Ho HL HD) as G.
    split; [exact G|]. unfold on_side. destruct kd; lra.
  Qed.

  (** Expressions that differ only in the addresses of their operations. *)
  Lemma args_er (n : node F) : arguments (er e0 n) = map (er e0) (arguments n).
  Proof. destruct n; reflexivity. Qed.
  Lemma constant_er (n : node F) : is_constant (er e0 n) = is_constant n.
  Proof. destruct n; reflexivity. Qed.
  Lemma var_er (n : node F) : is_var (er e0 n) = is_var n.
  Proof. destruct n; reflexivity. Qed.
  Lemma in_er (l l' : list (node F)) x : map (er e0) l' = map (er e0) l -> In x l -> exists y, In y l' /\ er e0 y = er e0 x.
  Proof. intros E Hx. apply (in_map (er e0)) in Hx. rewrite <- E in Hx. apply in_map_iff in Hx as (y & Ey & Hy). exists y. split; assumption. Qed.
  Lemma sub_er s b : sub s b -> forall a : node F, er e0 a = er e0 b -> exists s', sub s' a /\ er e0 s' = er e0 s.
  Proof.
    induction 1 as [n|s c n Hin _ IH]; intros a Ea; [exists a; split; [constructor|exact Ea]|].
    pose proof (f_equal arguments Ea) as G. rewrite !args_er in G. destruct (in_er _ _ _ G Hin) as (c' & Hc' & Ec).
    destruct (IH c' Ec) as (s' & Hs & Es). exists s'. split; [eapply sub_arg; eassumption|exact Es].
  Qed.
  Lemma filter_er (l l' : list (node F)) : map (er e0) l' = map (er e0) l -> length (filter is_constant l') = length (filter is_constant l).
  Proof.
    revert l'. induction l as [|x l IH]; intros [|y l'] E; try discriminate E; [reflexivity|]. cbn [map] in E.
    assert (E1 : er e0 y = er e0 x) by congruence. assert (E2 : map (er e0) l' = map (er e0) l) by congruence.
    cbn [filter]. rewrite <- (constant_er y), <- (constant_er x), E1. destruct (is_constant (er e0 x)); cbn [length]; rewrite (IH _ E2); reflexivity.
  Qed.
  Lemma canonical_er (a b : node F) : er e0 a = er e0 b -> @ExprSpec.canonical F NF a -> @ExprSpec.canonical F NF b.
  Proof.
    intros E Ha s Hs. destruct (sub_er s b Hs a E) as (s' & Hs' & Es). destruct (Ha s' Hs') as [H1 H2]. split.
    - rewrite <- (constant_er s), <- Es, constant_er. destruct H1 as [H1|(v & Hv1 & Hv2)]; [left; exact H1|right].
      destruct (sub_er v s' Hv2 s (eq_sym Es)) as (v' & Hv' & Ev). exists v'. split; [|exact Hv']. rewrite <- var_er, Ev, var_er. exact Hv1.
    - destruct s as [i w|i st kd|i args|i x|i x y|i x y|i x]; try exact I.
      + destruct s' as [j w'|j st' kd'|j args'|j x'|j x' y'|j x' y'|j x']; try discriminate Es. cbn [er] in Es.
        assert (E1 : map (er e0) args' = map (er e0) args) by congruence. destruct H2 as (L1 & L2 & L3). split; [|split].
        * rewrite <- (map_length (er e0) args), <- E1, map_length. exact L1.
        * intros x Hx i0 l0 ->. destruct (in_er _ _ _ E1 Hx) as (y & Hy & Ey). destruct y; try discriminate Ey. exact (L2 _ Hy _ _ eq_refl).
        * rewrite <- (filter_er _ _ E1). exact L3.
      + destruct s' as [j w'|j st' kd'|j args'|j x'|j x' y'|j x' y'|j x']; try discriminate Es. cbn [er] in Es.
        assert (E1 : er e0 y' = er e0 y) by congruence. destruct y as [i0 c0|? ? ?|? ?|? ?|? ? ?|? ? ?|? ?]; try exact I.
        destruct y' as [i1 c1|? ? ?|? ?|? ?|? ? ?|? ? ?|? ?]; try discriminate E1. cbn [er] in E1. assert (c1 = c0) as <- by congruence. exact H2.
  Qed.
  Lemma min_canonical (st : mstate F) m e : @hist F NF any_op st -> In m (st_models st) -> @minimises F NF (md_objective m) e -> @ExprSpec.canonical F NF e.
  Proof. intros Hh Hm He. destruct (minimises_built fsin fcos st m e Hh Hm He) as (e' & He' & [Hc _]). exact (canonical_er _ _ (minimises_sim _ _ _ He' He) Hc). Qed.
  Lemma diff_canonical (st : mstate F) m c d : @hist F NF any_op st -> In m (st_models st) -> In c (md_constraints m) -> gives (@sub_nn F NF (clhs c) (crhs c)) d -> @ExprSpec.canonical F NF d.
  Proof.
    intros Hh Hm Hc Hd. destruct (gives_built fsin fcos st m c d Hh Hm Hc Hd) as (d' & Hd' & [Hcan _]).
    refine (canonical_er d' d _ Hcan). change (@gsim F e0 d' d). eapply (@gives_sim (node F) (@gsim F e0)); [|exact Hd'|exact Hd]. apply sub_nn_sim; reflexivity.
  Qed.

  (** ** C86 for linear models: all the expressions are affine, and no condition on tangents is left. *)
  Theorem C86_linear (HO : HashOrd) (st : mstate F) solver m m' k' :
    @hist F NF any_op st -> In m (st_models st) -> @solve F NF HO solver m (st_k st) = (m', Returned (inl tt), k') -> NoDup (map cid (md_constraints m)) ->
    exists sp stat s, @std_problem F NF HO m (st_k st) = Ok (sp, k') /\ solver (sp_prob sp) = Ok (inl (stat, s)) /\
    forall eps tau eta delta r, near_stationary NF eps tau sp s -> near_complementary eta delta sp s -> 0 <= tau -> 0 <= eta -> 0 <= delta -> reads (md_primals m') r ->
      exists e ds, @minimises F NF (md_objective m) e /\ Forall2 (fun c d => gives (@sub_nn F NF (clhs c) (crhs c)) d) (md_constraints m) ds /\
        (Forall finite_constants (e :: ds) -> Forall (fun d => p_affine (@std_properties F NF d) = true) (e :: ds) ->
         forall L, NoDup L -> (forall c, In c L <-> exists v, model_var m v /\ nid v = c) ->
         exists g Ds, derivatives_at m (real_value e) g r /\ Forall2 (fun d D => derivatives_at m (real_value d) D r) ds Ds /\
         forall z, Forall2 (fun c d => to_zero (ckd c) (real_value d z)) (md_constraints m) ds ->
           real_value e r <= real_value e z
             + total (map (fun c => column_error NF eps tau m' (md_constraints m) e ds Ds r c * Rabs (z c - r c)) L)
             + total (map (gap_share eta L r z m') (combine (md_constraints m) (combine ds Ds)))).
  Proof.
    intros Hh Hm Es Hnd. destruct (C86_optimal HO st solver m m' k' Hh Hm Es Hnd) as (sp & stat & s & Esp & Eso & H86).
    exists sp, stat, s. split; [exact Esp|]. split; [exact Eso|]. intros eps tau eta delta r Hns Hnc Htau Heta Hdel Hr.
    destruct (H86 eps tau eta delta r Hns Hnc Htau Heta Hdel Hr) as (e & ds & He & Hds & Hopt). exists e, ds. split; [exact He|]. split; [exact Hds|].
    intros Hfc Haf L HnL HL.
    assert (Hder : forall d, @ExprSpec.canonical F NF d -> finite_constants d -> p_affine (@std_properties F NF d) = true -> derivatives_at m (real_value d) (fun c => dval c d r) r).
    { intros d Hc Hf Ha v Hv. apply (dval_derivative fsin fcos false []). apply arith_fine. exact (proj1 (affine_arith fsin fcos d Hc Hf Ha)). }
    pose proof (min_canonical st m e Hh Hm He) as Hce.
    inversion Hfc as [|? ? Fe Fd]; subst. inversion Haf as [|? ? Ae Ad]; subst.
    assert (Hcd : Forall2 (fun c d => (@ExprSpec.canonical F NF d /\ forall w, occurs w d -> In (nid w) L)) (md_constraints m) ds).
    { revert Hds. apply F2_in. intros c d Hc H1. split; [exact (diff_canonical st m c d Hh Hm Hc H1)|].
      intros w Hw. apply HL. exists w. split; [exact (diff_vars fsin fcos m c d Hc H1 w Hw)|reflexivity]. }
    set (Ds := map (fun d c => dval c d r) ds).
    assert (HD : Forall2 (fun d D => derivatives_at m (real_value d) D r) ds Ds).
    { unfold Ds. clear -Hcd Fd Ad Hder. revert Fd Ad. induction Hcd as [|c d cs ds [H1 _] _ IH]; intros Fd Ad; cbn [map]; constructor; inversion Fd; inversion Ad; subst; auto. }
    exists (fun c => dval c e r), Ds. split; [exact (Hder e Hce Fe Ae)|]. split; [exact HD|]. intros z Hz.
    assert (Hsq : Forall (fun d => p_affine (@std_properties F NF d) = false -> safe_quotients NF true (md_primals m') r d) (e :: ds)) by (revert Haf; apply Forall_impl; intros d Ha Hn; congruence).
    apply (Hopt Hfc Hsq L (fun c => dval c e r) Ds z); [exact HL|exact (Hder e Hce Fe Ae)|exact HD| |].
    - apply Req_le. symmetry. apply (affine_tangent m e L _ r z Hce Fe Ae HnL); [|exact HL|exact (Hder e Hce Fe Ae)].
      intros w Hw. apply HL. exists w. split; [exact (min_vars fsin fcos m e He w Hw)|reflexivity].
    - clear -Hcd Hz Fd Ad HnL HL Hder. unfold Ds. revert Hz Fd Ad. induction Hcd as [|c d cs ds [H1 H2] _ IH]; intros Hz Fd Ad; cbn [map combine]; constructor; inversion Fd; inversion Ad; inversion Hz; subst; [|auto].
      cbn [fst snd]. split; [|assumption].
      assert (G : real_value d z = real_value d r + slope L (fun c => dval c d r) r z) by (apply (affine_tangent m d L _ r z); auto).
      unfold on_side. destruct (ckd c); lra.
  Qed.

  Lemma value_er r (a : node F) : forall b, er e0 a = er e0 b -> real_value a r = real_value b r.
  Proof.
    induction a as [i w|i st kd|i args IH|i x IH|i x y IHx IHy|i x y IHx IHy|i x IH] using node_ind'; intros b Eb;
      destruct b as [j w'|j st' kd'|j args'|j x'|j x' y'|j x' y'|j x']; try discriminate Eb; cbn [er] in Eb; cbn [real_value].
    - congruence.
    - congruence.
    - assert (E1 : map (er e0) args = map (er e0) args') by congruence. clear Eb. revert args' E1. induction IH as [|a l Ha _ IHl]; intros [|b l'] E1; try discriminate E1; [reflexivity|].
      cbn [map fold_right] in *. rewrite (Ha b) by congruence. rewrite (IHl l') by congruence. reflexivity.
    - rewrite (IH x') by congruence. reflexivity.
    - rewrite (IHx x'), (IHy y') by congruence. reflexivity.
    - rewrite (IHx x'), (IHy y') by congruence. reflexivity.
    - rewrite (IH x') by congruence. reflexivity.
  Qed.
  (** ** C86, the share of a constraint in terms of the tolerances: an equality is only as far from
      zero as C85 says, an inequality as complementary as C84 says. *)
  Theorem C86_gap (HO : HashOrd) (st : mstate F) solver m m' k' :
    @hist F NF any_op st -> In m (st_models st) -> @solve F NF HO solver m (st_k st) = (m', Returned (inl tt), k') -> NoDup (map cid (md_constraints m)) ->
    exists sp stat s, @std_problem F NF HO m (st_k st) = Ok (sp, k') /\ solver (sp_prob sp) = Ok (inl (stat, s)) /\
    forall eps eta delta r, near_complementary eta delta sp s -> near_feasible eps delta sp s -> 0 <= delta -> reads (md_primals m') r ->
      forall c d, In c (md_constraints m) -> gives (@sub_nn F NF (clhs c) (crhs c)) d ->
        (forall d', gives (@sub_nn F NF (clhs c) (crhs c)) d' -> finite_constants d' /\
           (p_affine (@std_properties F NF d') = true -> finite64 (p_b (@std_properties F NF d'))) /\
           (p_affine (@std_properties F NF d') = false -> safe_quotients NF false (md_primals m') r d')) ->
        exists d' slack, gives (@sub_nn F NF (clhs c) (crhs c)) d' /\
          (forall v, slack = Some v -> In v (map fst (sp_var2index sp)) /\ (st_k st <= nid v)%nat) /\
          forall L D z, gap_share eta L r z m' (c, (d, D))
            <= bound_slop eta c + Rabs (recorded_dual m' c) * (delta + row_error NF (st_k st) r slack d') + bound_slop eta c * Rabs (slope L D r z).
  Proof.
    intros Hh Hm Es Hnd. destruct (C85_feasible fsin fcos Hsin Hcos HO st solver m m' k' Hh Hm Es Hnd) as (sp & stat & s & Esp & Eso & H85).
    destruct (C84_complementary fsin fcos Hsin Hcos HO st solver m m' k' Hh Hm Es Hnd) as (sp0 & stat0 & s0 & Esp0 & Eso0 & H84).
    assert (Ep : sp0 = sp) by congruence. subst sp0. assert (Ess : s0 = s) by congruence. subst s0.
    exists sp, stat, s. split; [exact Esp|]. split; [exact Eso|]. intros eps eta delta r Hnc Hnf Hdel Hr c d Hc Hd Hall.
    assert (Hval : forall d', gives (@sub_nn F NF (clhs c) (crhs c)) d' -> real_value d r = real_value d' r).
    { intros d' Hd'. apply value_er. change (@gsim F e0 d d'). eapply (@gives_sim (node F) (@gsim F e0)); [|exact Hd|exact Hd']. apply sub_nn_sim; reflexivity. }
    destruct (ckd c) eqn:Ek.
    - destruct (H85 eps delta r Hnf Hdel Hr) as [_ G]. destruct (G c Hc) as (d' & slack & Gd & Gs & Hrel). exists d', slack. split; [exact Gd|]. split; [exact Gs|].
      destruct (Hall d' Gd) as (A1 & A2 & A3). specialize (Hrel A1 A2 A3). unfold rel_within, bound_slop in Hrel. rewrite Ek in Hrel.
      intros L D z. cbn [gap_share]. unfold bound_slop. rewrite Ek, (Hval d' Gd), Rabs_mult. rewrite Rminus_0_r, Rplus_0_l in Hrel.
      pose proof (Rmult_le_compat_l _ _ _ (Rabs_pos (recorded_dual m' c)) Hrel). lra.
    - destruct (H84 eta delta r Hnc Hdel Hr c Hc ltac:(rewrite Ek; discriminate)) as (_ & d' & slack & Gd & Gs & Hp). exists d', slack. split; [exact Gd|]. split; [exact Gs|].
      destruct (Hall d' Gd) as (A1 & _ & A3). specialize (Hp A1 A3). intros L D z. cbn [gap_share]. unfold bound_slop. rewrite Ek, (Hval d' Gd). lra.
    - destruct (H84 eta delta r Hnc Hdel Hr c Hc ltac:(rewrite Ek; discriminate)) as (_ & d' & slack & Gd & Gs & Hp). exists d', slack. split; [exact Gd|]. split; [exact Gs|].
      destruct (Hall d' Gd) as (A1 & _ & A3). specialize (Hp A1 A3). intros L D z. cbn [gap_share]. unfold bound_slop. rewrite Ek, (Hval d' Gd). lra.
  Qed.
End C86.

(** ** A non-trivial case: minimise x^2 + 3y with x >= 2, x + y = 4 and x^2 <= 9, answer x = y = 2,
    compared with x = 3, y = 1 *)
Section Ex86.
  Local Open Scope string_scope.
  Notation NM := (NumF (machine sin) (machine cos)).
  Definition c86_prog : list (call F) :=
    [CExpr (OVar "x" VarContinuous); CExpr (OVar "y" VarContinuous); CExpr (OMulNN 0 0); CExpr (OMulNS 1 (flit 3)); CExpr (OAddNN 2 3); CExpr (OAddNN 0 1);
     CCmpNS 0 GreaterEqual (flit 2) ""; CCmpNS 5 Equal (flit 4) ""; CCmpNS 2 LessEqual (flit 9) ""; CNewModel; CSetObj 0 Minimise 4; CAddConstrs 0 [0; 1; 2]%nat].
  Definition c86_obj : node F := NAdd 5 [NMul 2 c74_x c74_x; NMul 4 c74_y (NConst 3 (flit 3))].
  Definition c86_cons : list (constraint F) :=
    [{| cid := 8; clhs := c74_x; ckd := GreaterEqual; crhs := NConst 7 (flit 2); clabel := "" |};
     {| cid := 10; clhs := NAdd 6 [c74_x; c74_y]; ckd := Equal; crhs := NConst 9 (flit 4); clabel := "" |};
     {| cid := 12; clhs := NMul 2 c74_x c74_x; ckd := LessEqual; crhs := NConst 11 (flit 9); clabel := "" |}].
  Definition c86_sol : sol F := mk_sol [flit (-5); flit 2; flit 2] [flit 3] [flit 0] [flit 0; flit 0; flit 0] [flit 0; flit 1; flit 0].
  Definition c86_solver (p : problem F) : res answer := Ok (inl (Solved, c86_sol)).
  Definition c86_r (i : nat) : R := match i with O | Datatypes.S O => float_value (flit 2) | _ => float_value (flit (-5)) end.
  Definition c86_z (i : nat) : R := match i with O => 3 | Datatypes.S O => 1 | _ => 0 end.
  Example C86_example : exists (st : mstate F) m sp k' m',
    accurate (machine sin) sin /\ accurate (machine cos) cos /\
    @hist F NM any_op st /\ In m (st_models st) /\ md_objective m = Minimize c86_obj /\ md_constraints m = c86_cons /\ @std_problem F NM ord_id m (st_k st) = Ok (sp, k') /\
    @solve F NM ord_id c86_solver m (st_k st) = (m', Returned (inl tt), k') /\ NoDup (map cid (md_constraints m)) /\
    near_stationary NM 0 0 sp c86_sol /\ near_complementary 0 0 sp c86_sol /\ reads (md_primals m') c86_r /\
    map (recorded_dual m') (md_constraints m) = [float_value (flit 1); float_value (flit 3); float_value (flit 0)] /\
    forall e ds, @minimises F NM (md_objective m) e -> Forall2 (fun c d => gives (@sub_nn F NM (clhs c) (crhs c)) d) (md_constraints m) ds ->
      Forall finite_constants (e :: ds) /\
      Forall (fun d => p_affine (@std_properties F NM d) = false -> safe_quotients NM true (md_primals m') c86_r d) (e :: ds) /\
      exists g Ds, derivatives_at m (real_value e) g c86_r /\ Forall2 (fun d D => derivatives_at m (real_value d) D c86_r) ds Ds /\
        real_value e c86_r + slope [0; 1]%nat g c86_r c86_z <= real_value e c86_z /\
        Forall2 (fun c dD => on_side (ckd c) [0; 1]%nat (real_value (fst dD)) (snd dD) c86_r c86_z /\ to_zero (ckd c) (real_value (fst dD) c86_z)) (md_constraints m) (combine ds Ds) /\
        real_value e c86_r = 10 /\ real_value e c86_z = 12.
  Proof.
    assert (C : match @mrun F NM ord_id c86_prog mstart with
                | Some st => match st_models st with
                  | [m] => md_objective m = Minimize c86_obj /\ md_constraints m = c86_cons /\
                    match @std_problem F NM ord_id m (st_k st) with
                    | Ok (sp, _) => m_nx (base_of (sp_prob sp)) = 3%nat /\ m_b (base_of (sp_prob sp)) = [flit 4] /\
                        entries (m_a (base_of (sp_prob sp))) = [(0%nat, 1%nat, flit 1); (0%nat, 2%nat, flit 1)] /\
                        m_u (base_of (sp_prob sp)) = [flit 0; flit 100000000; flit 100000000] /\
                        m_l (base_of (sp_prob sp)) = [flit (-100000000); flit 2; flit (-100000000)] /\
                        match minlp_evaluate (base_of (sp_prob sp)) (s_x c86_sol) with
                        | Ok q => b_gphi (m_bufs q) = [flit 0; flit 4; flit 3] /\ b_f (m_bufs q) = [flit 0] /\
                                  entries (b_j (m_bufs q)) = [(0%nat, 1%nat, flit 4); (0%nat, 0%nat, flit (-1))]
                        | Panic _ => False end
                    | Panic _ => False end /\
                    match @solve F NM ord_id c86_solver m (st_k st) with
                    | (m', Returned (inl tt), _) => md_primals m' = [(NVar 54 "_s_j0_" VarContinuous, flit (-5)); (c74_x, flit 2); (c74_y, flit 2)] /\
                         map (fun c => hget constr_eqb c (md_duals m')) c86_cons = [Some (flit 1); Some (flit 3); Some (flit 0)]
                    | _ => False end
                  | _ => False end
                | None => False end) by (vm_compute; repeat split).
    destruct (@mrun F NM ord_id c86_prog mstart) as [st|] eqn:E; [|destruct C].
    destruct (st_models st) as [|m [|]] eqn:Em; try (destruct C; fail). destruct C as (C0 & C1 & C2 & C3).
    destruct (@std_problem F NM ord_id m (st_k st)) as [[sp k']|] eqn:Es; [|destruct C2].
    destruct C2 as (D1 & D2 & D3 & D4 & D5 & D6).
    destruct (minlp_evaluate (base_of (sp_prob sp)) (s_x c86_sol)) as [q|] eqn:Eq; [|destruct D6]. destruct D6 as (Q1 & Q2 & Q3).
    destruct (@solve F NM ord_id c86_solver m (st_k st)) as [[m' [[[]|]|]] k2] eqn:Ev; try (destruct C3; fail). destruct C3 as (C4 & C5).
    assert (Ek : k2 = k').
    { destruct (@solve_ok F NM ord_id _ _ _ _ _ Ev) as (sp0 & stat0 & s0 & Es0 & _). rewrite Es in Es0. congruence. }
    subst k2.
    assert (I0 : forall z, (Z.abs z <= 2 ^ 53)%Z -> finite64 (flit z) /\ float_value (flit z) = IZR z).
    { intros z Hz. destruct (flit_int z Hz) as [F1 V1]. split; [apply finite_fin; exact F1|]. rewrite float_value_fval. exact V1. }
    destruct (I0 0%Z ltac:(cbn; lia)) as [F0 V0]. destruct (I0 1%Z ltac:(cbn; lia)) as [F1 V1]. destruct (I0 2%Z ltac:(cbn; lia)) as [F2 V2]. destruct (I0 3%Z ltac:(cbn; lia)) as [F3 V3].
    destruct (I0 4%Z ltac:(cbn; lia)) as [F4 V4]. destruct (I0 (-2)%Z ltac:(cbn; lia)) as [F5 V5]. destruct (I0 (-1)%Z ltac:(cbn; lia)) as [F6 V6].
    destruct (I0 (-5)%Z ltac:(cbn; lia)) as [F7 V7]. destruct (I0 (-4)%Z ltac:(cbn; lia)) as [F8 V8]. destruct (I0 (-9)%Z ltac:(cbn; lia)) as [F9 V11].
    destruct (I0 100000000%Z ltac:(cbn; lia)) as [_ V9]. destruct (I0 (-100000000)%Z ltac:(cbn; lia)) as [_ V10]. clear I0.
    exists st, m, sp, k', m'. destruct C76_accurate as [A1 A2]. split; [exact A1|]. split; [exact A2|].
    split; [eapply (@mrun_hist F NM ord_id c86_prog mstart); [constructor|exact E]|].
    split; [rewrite Em; left; reflexivity|]. split; [exact C0|]. split; [exact C1|]. split; [exact Es|]. split; [exact Ev|].
    split; [rewrite C1; cbn [map cid c86_cons]; repeat constructor; cbn; intuition discriminate|].
    split.
    { constructor.
      - rewrite D1. reflexivity.
      - intros q0 Eq0 j Hj. assert (q0 = q) as -> by congruence. rewrite D1 in Hj. split.
        + unfold column_finite, stored_finite, at_pos. rewrite D3, Q1, Q3.
          destruct j as [|[|[|j]]]; [| | |exfalso; lia]; (split; [reflexivity|]); split; intros [|i]; cbn; repeat constructor.
        + unfold told_residual, stored, at_pos. rewrite D2, Q2, D3, Q1, Q3. unfold c86_sol, multiplier. cbn [s_lam s_nu s_mu s_pi seq map length].
          destruct j as [|[|[|j]]]; [| | |exfalso; lia]; cbn [filter fst snd Nat.eqb andb map nth weighted total fold_right];
            rewrite ?V0, ?V1, ?V2, ?V3, ?V4, ?V5, ?V6; apply Rabs_le; lra.
      - intros j Hj. unfold multiplier, c86_sol. cbn [s_mu]. destruct j as [|[|[|[|j]]]]; cbn [nth]; rewrite V0; apply Rabs_le; lra.
      - intros j Hj. rewrite D5 in Hj. unfold multiplier, c86_sol. cbn [s_pi].
        destruct j as [|[|[|j]]]; cbn [nth_error nth] in *; [rewrite V0; apply Rabs_le; lra| |rewrite V0; apply Rabs_le; lra|destruct j; discriminate Hj].
        exfalso. pose proof (f_equal (fun o => match o with Some y => float_value y | None => 0 end) Hj) as G. cbn beta iota in G.
        change (@nneg F NM (@INF F NM)) with (flit (-100000000)) in G. rewrite V2, V10 in G. lra. }
    split.
    { constructor.
      - rewrite D1. reflexivity.
      - repeat constructor.
      - intros i Hi. rewrite D2 in *. cbn [length] in Hi. destruct i as [|i]; [|exfalso; lia]. split; [reflexivity|]. split.
        + intros j. unfold stored_finite, at_pos. rewrite D3. destruct j as [|[|[|j]]]; cbn; repeat constructor.
        + unfold linear_miss, stored, at_pos, entry. rewrite D1, D3. unfold c86_sol. cbn [s_x seq map filter fst snd Nat.eqb andb nth total fold_right].
          rewrite ?V0, ?V1, ?V2, ?V3, ?V4. apply Rabs_le. lra.
      - intros q0 Eq0 i y Hy. assert (q0 = q) as -> by congruence. rewrite Q2 in Hy. destruct i as [|i]; [|destruct i; discriminate Hy].
        assert (y = flit 0) as -> by (cbn [nth_error] in Hy; congruence). split; [reflexivity|]. rewrite V0, Rabs_R0. lra.
      - intros j u Hj. rewrite D4 in Hj. unfold multiplier, entry, c86_sol. cbn [s_mu s_x].
        destruct j as [|[|[|j]]]; cbn [nth_error nth] in *; [assert (u = flit 0) as -> by congruence|assert (u = flit 100000000) as -> by congruence|assert (u = flit 100000000) as -> by congruence|destruct j; discriminate Hj]; (split; [reflexivity|]);
          rewrite ?V0, ?V1, ?V2, ?V3, ?V9; (split; [lra|]); apply Rabs_le; lra.
      - intros j u Hj. rewrite D5 in Hj. unfold multiplier, entry, c86_sol. cbn [s_pi s_x].
        destruct j as [|[|[|j]]]; cbn [nth_error nth] in *; [assert (u = flit (-100000000)) as -> by congruence|assert (u = flit 2) as -> by congruence|assert (u = flit (-100000000)) as -> by congruence|destruct j; discriminate Hj]; (split; [reflexivity|]);
          rewrite ?V0, ?V1, ?V2, ?V3, ?V4, ?V10; (split; [lra|]); apply Rabs_le; lra. }
    split.
    { rewrite C4. intros v x Hv Hg. destruct v as [i c|i s kd|i l|i a|i a b|i a b|i a]; try discriminate Hv. unfold c74_x, c74_y in Hg. cbn [hget ptr_eq] in Hg.
      destruct (Nat.eqb i 54) eqn:Ei0; [|destruct (Nat.eqb i 0) eqn:Ei; [|destruct (Nat.eqb i 1) eqn:Ei1; [|discriminate Hg]]].
      - apply Nat.eqb_eq in Ei0. assert (x = flit (-5)) as -> by congruence. subst i. split; [apply F7|reflexivity].
      - apply Nat.eqb_eq in Ei. assert (x = flit 2) as -> by congruence. subst i. split; [apply F2|reflexivity].
      - apply Nat.eqb_eq in Ei1. assert (x = flit 2) as -> by congruence. subst i. split; [apply F2|reflexivity]. }
    split.
    { rewrite C1. unfold recorded_dual. change (fun c => match hget constr_eqb c (md_duals m') with Some y => float_value y | None => 0 end)
        with (fun c => (fun o => match o with Some y => float_value y | None => 0 end) ((fun c => hget constr_eqb c (md_duals m')) c)).
      rewrite <- (map_map (fun c => hget constr_eqb c (md_duals m')) (fun o => match o with Some y => float_value y | None => 0 end)), C5. reflexivity. }
    rewrite C0, C1. intros e ds He Hds. cbn [minimises] in He. subst e. unfold c86_cons in *.
    inversion Hds as [|? d0 ? ds0 (k0 & k1 & E0) Hd0]; subst. clear Hds. inversion Hd0 as [|? d1 ? ds1 (k2 & k3 & E1) Hd1]; subst. clear Hd0.
    inversion Hd1 as [|? d2 ? ds2 (k4 & k5 & E2) Hd2]; subst. clear Hd1. inversion Hd2; subst. clear Hd2. cbn [clhs crhs] in E0, E1, E2.
    assert (X0 : d0 = NAdd (Datatypes.S (Datatypes.S k0)) [c74_x; NConst (Datatypes.S k0) (flit (-2))]) by (vm_compute in E0; injection E0 as <- _; vm_compute; reflexivity).
    assert (X1 : d1 = NAdd (Datatypes.S (Datatypes.S k2)) [c74_x; c74_y; NConst (Datatypes.S k2) (flit (-4))]) by (vm_compute in E1; injection E1 as <- _; vm_compute; reflexivity).
    assert (X2 : d2 = NAdd (Datatypes.S (Datatypes.S k4)) [NMul 2 c74_x c74_x; NConst (Datatypes.S k4) (flit (-9))]) by (vm_compute in E2; injection E2 as <- _; vm_compute; reflexivity).
    rewrite X0, X1, X2. clear E0 E1 E2 X0 X1 X2 d0 d1 d2.
    split.
    { apply Forall_forall. intros n Hn i v Hs. unfold c86_obj, c74_x, c74_y in *. destruct Hn as [<-|[<-|[<-|[<-|[]]]]];
        repeat match goal with
        | Hs : sub _ (NVar _ _ _) |- _ => inversion Hs; clear Hs; subst
        | Hs : sub _ (NConst _ _) |- _ => inversion Hs; clear Hs; subst
        | Hs : sub _ (NMul _ _ _) |- _ => inversion Hs; clear Hs; subst
        | Hs : sub _ (NAdd _ _) |- _ => inversion Hs; clear Hs; subst
        | Hi : In _ _ |- _ => cbn [arguments In] in Hi
        | Hi : _ \/ _ |- _ => destruct Hi as [<-|Hi]
        | Hi : False |- _ => destruct Hi
        end; assumption. }
    split.
    { apply Forall_forall. intros n Hn _. destruct Hn as [<-|[<-|[<-|[<-|[]]]]]; repeat split. }
    assert (Hder : forall n : node F, arith n -> derivatives_at m (real_value n) (fun c => dval c n c86_r) c86_r).
    { intros n Hn v _. apply (dval_derivative (machine sin) (machine cos) false []). apply arith_fine. exact Hn. }
    set (n0 := NAdd (Datatypes.S (Datatypes.S k0)) [c74_x; NConst (Datatypes.S k0) (flit (-2))]).
    set (n1 := NAdd (Datatypes.S (Datatypes.S k2)) [c74_x; c74_y; NConst (Datatypes.S k2) (flit (-4))]).
    set (n2 := NAdd (Datatypes.S (Datatypes.S k4)) [NMul 2 c74_x c74_x; NConst (Datatypes.S k4) (flit (-9))]).
    exists (fun c => dval c c86_obj c86_r), [fun c => dval c n0 c86_r; fun c => dval c n1 c86_r; fun c => dval c n2 c86_r].
    split; [apply Hder; cbn [arith c86_obj c74_x c74_y]; repeat (split; try exact I; try assumption)|].
    split.
    { apply Forall2_cons; [|apply Forall2_cons; [|apply Forall2_cons; [|apply Forall2_nil]]]; apply Hder; unfold n0, n1, n2; cbn [arith c74_x c74_y]; repeat (split; try exact I; try assumption). }
    split.
    { unfold slope, c86_obj, c74_x, c74_y. cbn [real_value dval map fold_right total Nat.eqb c86_r c86_z]. rewrite ?V2, ?V3. lra. }
    split.
    { apply Forall2_cons; [|apply Forall2_cons; [|apply Forall2_cons; [|apply Forall2_nil]]]; cbn [ckd on_side to_zero fst snd]; unfold slope, n0, n1, n2, c74_x, c74_y;
        cbn [real_value dval map fold_right total Nat.eqb c86_r c86_z]; rewrite ?V2, ?V3, ?V5, ?V8, ?V11; lra. }
    unfold c86_obj, c74_x, c74_y. split; cbn [real_value fold_right c86_r c86_z]; rewrite ?V2, ?V3; lra.
  Qed.
End Ex86.

(** ** A non-trivial case of the linear theorem: minimise x + 3y with x <= 2, x + y = 4 and
    x + 2y <= 9, answer x = y = 2, compared with x = 1, y = 3 *)
Section ExLin.
  Local Open Scope string_scope.
  Notation NM := (NumF (machine sin) (machine cos)).
  Definition lin_prog : list (call F) :=
    [CExpr (OVar "x" VarContinuous); CExpr (OVar "y" VarContinuous); CExpr (OMulNS 1 (flit 3)); CExpr (OAddNN 0 2); CExpr (OAddNN 0 1); CExpr (OMulNS 1 (flit 2)); CExpr (OAddNN 0 5);
     CCmpNS 0 LessEqual (flit 2) ""; CCmpNS 4 Equal (flit 4) ""; CCmpNS 6 LessEqual (flit 9) ""; CNewModel; CSetObj 0 Minimise 3; CAddConstrs 0 [0; 1; 2]%nat].
  Definition lin_obj : node F := NAdd 4 [c74_x; NMul 3 c74_y (NConst 2 (flit 3))].
  Definition lin_cons : list (constraint F) :=
    [{| cid := 10; clhs := c74_x; ckd := LessEqual; crhs := NConst 9 (flit 2); clabel := "" |};
     {| cid := 12; clhs := NAdd 5 [c74_x; c74_y]; ckd := Equal; crhs := NConst 11 (flit 4); clabel := "" |};
     {| cid := 14; clhs := NAdd 8 [c74_x; NMul 7 c74_y (NConst 6 (flit 2))]; ckd := LessEqual; crhs := NConst 13 (flit 9); clabel := "" |}].
  Definition lin_sol : sol F := mk_sol [flit (-3); flit 2; flit 2] [flit 3; flit 0] [] [flit 0; flit 2; flit 0] [flit 0; flit 0; flit 0].
  Definition lin_solver (p : problem F) : res answer := Ok (inl (Solved, lin_sol)).
  Definition lin_r (i : nat) : R := match i with O | Datatypes.S O => float_value (flit 2) | _ => float_value (flit (-3)) end.
  Definition lin_z (i : nat) : R := match i with O => 1 | Datatypes.S O => 3 | _ => 0 end.
  Example C86_linear_example : exists (st : mstate F) m sp k' m',
    accurate (machine sin) sin /\ accurate (machine cos) cos /\
    @hist F NM any_op st /\ In m (st_models st) /\ @std_problem F NM ord_id m (st_k st) = Ok (sp, k') /\
    @solve F NM ord_id lin_solver m (st_k st) = (m', Returned (inl tt), k') /\ NoDup (map cid (md_constraints m)) /\
    near_stationary NM 0 0 sp lin_sol /\ near_complementary 0 0 sp lin_sol /\ near_feasible 0 0 sp lin_sol /\ reads (md_primals m') lin_r /\
    map (recorded_dual m') (md_constraints m) = [float_value (flit 2); float_value (flit 3); float_value (flit 0)] /\
    (forall c, In c [0; 1]%nat <-> exists v, model_var m v /\ nid v = c) /\
    forall e ds, @minimises F NM (md_objective m) e -> Forall2 (fun c d => gives (@sub_nn F NM (clhs c) (crhs c)) d) (md_constraints m) ds ->
      Forall finite_constants (e :: ds) /\ Forall (fun d => p_affine (@std_properties F NM d) = true) (e :: ds) /\
      Forall2 (fun c d => to_zero (ckd c) (real_value d lin_z)) (md_constraints m) ds /\
      real_value e lin_r = 8 /\ real_value e lin_z = 10.
  Proof.
    assert (C : match @mrun F NM ord_id lin_prog mstart with
                | Some st => match st_models st with
                  | [m] => md_objective m = Minimize lin_obj /\ md_constraints m = lin_cons /\
                    match @std_problem F NM ord_id m (st_k st) with
                    | Ok (sp, _) => m_nx (base_of (sp_prob sp)) = 3%nat /\ m_p (base_of (sp_prob sp)) = [false; false; false] /\ m_b (base_of (sp_prob sp)) = [flit 4; flit 9] /\
                        entries (m_a (base_of (sp_prob sp))) = [(0%nat, 1%nat, flit 1); (0%nat, 2%nat, flit 1); (1%nat, 1%nat, flit 1); (1%nat, 2%nat, flit 2); (1%nat, 0%nat, flit (-1))] /\
                        m_u (base_of (sp_prob sp)) = [flit 0; flit 2; flit 100000000] /\
                        m_l (base_of (sp_prob sp)) = [flit (-100000000); flit (-100000000); flit (-100000000)] /\
                        match minlp_evaluate (base_of (sp_prob sp)) (s_x lin_sol) with
                        | Ok q => b_gphi (m_bufs q) = [flit 0; flit 1; flit 3] /\ b_f (m_bufs q) = [] /\
                                  entries (b_j (m_bufs q)) = []
                        | Panic _ => False end
                    | Panic _ => False end /\
                    match @solve F NM ord_id lin_solver m (st_k st) with
                    | (m', Returned (inl tt), _) => md_primals m' = [(NVar 31 "_s_a1_" VarContinuous, flit (-3)); (c74_x, flit 2); (c74_y, flit 2)] /\
                         map (fun c => hget constr_eqb c (md_duals m')) lin_cons = [Some (flit 2); Some (flit 3); Some (flit 0)]
                    | _ => False end
                  | _ => False end
                | None => False end) by (vm_compute; repeat split).
    destruct (@mrun F NM ord_id lin_prog mstart) as [st|] eqn:E; [|destruct C].
    destruct (st_models st) as [|m [|]] eqn:Em; try (destruct C; fail). destruct C as (C0 & C1 & C2 & C3).
    destruct (@std_problem F NM ord_id m (st_k st)) as [[sp k']|] eqn:Es; [|destruct C2].
    destruct C2 as (D1 & D0 & D2 & D3 & D4 & D5 & D6).
    destruct (minlp_evaluate (base_of (sp_prob sp)) (s_x lin_sol)) as [q|] eqn:Eq; [|destruct D6]. destruct D6 as (Q1 & Q2 & Q3).
    destruct (@solve F NM ord_id lin_solver m (st_k st)) as [[m' [[[]|]|]] k2] eqn:Ev; try (destruct C3; fail). destruct C3 as (C4 & C5).
    assert (Ek : k2 = k').
    { destruct (@solve_ok F NM ord_id _ _ _ _ _ Ev) as (sp0 & stat0 & s0 & Es0 & _). rewrite Es in Es0. congruence. }
    subst k2.
    assert (I0 : forall z, (Z.abs z <= 2 ^ 53)%Z -> finite64 (flit z) /\ float_value (flit z) = IZR z).
    { intros z Hz. destruct (flit_int z Hz) as [F1 V1]. split; [apply finite_fin; exact F1|]. rewrite float_value_fval. exact V1. }
    destruct (I0 0%Z ltac:(cbn; lia)) as [F0 V0]. destruct (I0 1%Z ltac:(cbn; lia)) as [F1 V1]. destruct (I0 2%Z ltac:(cbn; lia)) as [F2 V2]. destruct (I0 3%Z ltac:(cbn; lia)) as [F3 V3].
    destruct (I0 4%Z ltac:(cbn; lia)) as [F4 V4]. destruct (I0 (-2)%Z ltac:(cbn; lia)) as [F5 V5]. destruct (I0 (-1)%Z ltac:(cbn; lia)) as [F6 V6].
    destruct (I0 (-3)%Z ltac:(cbn; lia)) as [F7 V7]. destruct (I0 (-4)%Z ltac:(cbn; lia)) as [F8 V8]. destruct (I0 (-9)%Z ltac:(cbn; lia)) as [F9 V11].
    destruct (I0 9%Z ltac:(cbn; lia)) as [F12 V12].
    destruct (I0 100000000%Z ltac:(cbn; lia)) as [_ V9]. destruct (I0 (-100000000)%Z ltac:(cbn; lia)) as [_ V10]. clear I0.
    exists st, m, sp, k', m'. destruct C76_accurate as [A1 A2]. split; [exact A1|]. split; [exact A2|].
    split; [eapply (@mrun_hist F NM ord_id lin_prog mstart); [constructor|exact E]|].
    split; [rewrite Em; left; reflexivity|]. split; [exact Es|]. split; [exact Ev|].
    split; [rewrite C1; cbn [map cid lin_cons]; repeat constructor; cbn; intuition discriminate|].
    split.
    { constructor.
      - rewrite D1. reflexivity.
      - intros q0 Eq0 j Hj. assert (q0 = q) as -> by congruence. rewrite D1 in Hj. split.
        + unfold column_finite, stored_finite, at_pos. rewrite D3, Q1, Q3.
          destruct j as [|[|[|j]]]; [| | |exfalso; lia]; (split; [reflexivity|]); split; intros [|[|i]]; cbn; repeat constructor.
        + unfold told_residual, stored, at_pos. rewrite D2, Q2, D3, Q1, Q3. unfold lin_sol, multiplier. cbn [s_lam s_nu s_mu s_pi seq map length].
          destruct j as [|[|[|j]]]; [| | |exfalso; lia]; cbn [filter fst snd Nat.eqb andb map nth weighted total fold_right];
            rewrite ?V0, ?V1, ?V2, ?V3, ?V4, ?V5, ?V6; apply Rabs_le; lra.
      - intros j Hj. unfold multiplier, lin_sol. cbn [s_mu].
        destruct j as [|[|[|j]]]; cbn [nth]; try (rewrite V0; apply Rabs_le; lra); [|destruct j; rewrite V0; apply Rabs_le; lra].
        exfalso. rewrite D4 in Hj. cbn [nth_error] in Hj.
        pose proof (f_equal (fun o => match o with Some y => float_value y | None => 0 end) Hj) as G. cbn beta iota in G.
        change (@INF F NM) with (flit 100000000) in G. rewrite V2, V9 in G. lra.
      - intros j Hj. unfold multiplier, lin_sol. cbn [s_pi]. destruct j as [|[|[|[|j]]]]; cbn [nth]; rewrite V0; apply Rabs_le; lra. }
    split.
    { constructor.
      - rewrite D1. reflexivity.
      - repeat constructor.
      - intros i Hi. rewrite D2 in *. cbn [length] in Hi. destruct i as [|[|i]]; [| |exfalso; lia]; (split; [reflexivity|]); split.
        1, 3: intros j; unfold stored_finite, at_pos; rewrite D3; destruct j as [|[|[|j]]]; cbn; repeat constructor.
        all: unfold linear_miss, stored, at_pos, entry; rewrite D1, D3; unfold lin_sol; cbn [s_x seq map filter fst snd Nat.eqb andb nth total fold_right];
          rewrite ?V0, ?V1, ?V2, ?V3, ?V4, ?V6, ?V7, ?V12; apply Rabs_le; lra.
      - intros q0 Eq0 i y Hy. assert (q0 = q) as -> by congruence. rewrite Q2 in Hy. destruct i; discriminate Hy.
      - intros j u Hj. rewrite D4 in Hj. unfold multiplier, entry, lin_sol. cbn [s_mu s_x].
        destruct j as [|[|[|j]]]; cbn [nth_error nth] in *; [assert (u = flit 0) as -> by congruence|assert (u = flit 2) as -> by congruence|assert (u = flit 100000000) as -> by congruence|destruct j; discriminate Hj]; (split; [reflexivity|]);
          rewrite ?V0, ?V1, ?V2, ?V3, ?V7, ?V9; (split; [lra|]); apply Rabs_le; lra.
      - intros j u Hj. rewrite D5 in Hj. unfold multiplier, entry, lin_sol. cbn [s_pi s_x].
        destruct j as [|[|[|j]]]; cbn [nth_error nth] in *; [assert (u = flit (-100000000)) as -> by congruence|assert (u = flit (-100000000)) as -> by congruence|assert (u = flit (-100000000)) as -> by congruence|destruct j; discriminate Hj]; (split; [reflexivity|]);
          rewrite ?V0, ?V1, ?V2, ?V3, ?V4, ?V7, ?V10; (split; [lra|]); apply Rabs_le; lra. }
    split.
    { constructor.
      - rewrite D1. reflexivity.
      - repeat constructor.
      - intros i Hi. rewrite D2 in *. cbn [length] in Hi. destruct i as [|[|i]]; [| |exfalso; lia]; (split; [reflexivity|]); split.
        1, 3: intros j; unfold stored_finite, at_pos; rewrite D3; destruct j as [|[|[|j]]]; cbn; repeat constructor.
        all: unfold linear_miss, stored, at_pos, entry; rewrite D1, D3; unfold lin_sol; cbn [s_x seq map filter fst snd Nat.eqb andb nth total fold_right];
          rewrite ?V0, ?V1, ?V2, ?V3, ?V4, ?V6, ?V7, ?V12; apply Rabs_le; lra.
      - intros q0 Eq0 i y Hy. assert (q0 = q) as -> by congruence. rewrite Q2 in Hy. destruct i; discriminate Hy.
      - intros j u Hj. rewrite D4 in Hj. unfold entry, lin_sol. cbn [s_x].
        destruct j as [|[|[|j]]]; cbn [nth_error nth] in *; [assert (u = flit 0) as -> by congruence|assert (u = flit 2) as -> by congruence|assert (u = flit 100000000) as -> by congruence|destruct j; discriminate Hj]; (split; [repeat constructor|]);
          rewrite ?V0, ?V1, ?V2, ?V3, ?V7, ?V9; lra.
      - intros j u Hj. rewrite D5 in Hj. unfold entry, lin_sol. cbn [s_x].
        destruct j as [|[|[|j]]]; cbn [nth_error nth] in *; [assert (u = flit (-100000000)) as -> by congruence|assert (u = flit (-100000000)) as -> by congruence|assert (u = flit (-100000000)) as -> by congruence|destruct j; discriminate Hj]; (split; [repeat constructor|]);
          rewrite ?V0, ?V1, ?V2, ?V3, ?V4, ?V7, ?V10; lra.
      - intros j Hj. rewrite D0 in Hj. destruct j as [|[|[|j]]]; try discriminate Hj. destruct j; discriminate Hj. }
    split.
    { rewrite C4. intros v x Hv Hg. destruct v as [i c|i s kd|i l|i a|i a b|i a b|i a]; try discriminate Hv. unfold c74_x, c74_y in Hg. cbn [hget ptr_eq] in Hg.
      destruct (Nat.eqb i 31) eqn:Ei0; [|destruct (Nat.eqb i 0) eqn:Ei; [|destruct (Nat.eqb i 1) eqn:Ei1; [|discriminate Hg]]].
      - apply Nat.eqb_eq in Ei0. assert (x = flit (-3)) as -> by congruence. subst i. split; [apply F7|reflexivity].
      - apply Nat.eqb_eq in Ei. assert (x = flit 2) as -> by congruence. subst i. split; [apply F2|reflexivity].
      - apply Nat.eqb_eq in Ei1. assert (x = flit 2) as -> by congruence. subst i. split; [apply F2|reflexivity]. }
    split.
    { rewrite C1. unfold recorded_dual. change (fun c => match hget constr_eqb c (md_duals m') with Some y => float_value y | None => 0 end)
        with (fun c => (fun o => match o with Some y => float_value y | None => 0 end) ((fun c => hget constr_eqb c (md_duals m')) c)).
      rewrite <- (map_map (fun c => hget constr_eqb c (md_duals m')) (fun o => match o with Some y => float_value y | None => 0 end)), C5. reflexivity. }
    split.
    { intros c. split.
      - intros Hc. assert (Hx : occurs c74_x lin_obj) by (split; [reflexivity|]; eapply sub_arg; [left; reflexivity|constructor]).
        assert (Hy : occurs c74_y lin_obj) by (split; [reflexivity|]; eapply sub_arg; [right; left; reflexivity|]; eapply sub_arg; [left; reflexivity|constructor]).
        destruct Hc as [<-|[<-|[]]]; [exists c74_x|exists c74_y]; (split; [left; rewrite C0; assumption|reflexivity]).
      - intros (v & Hv & <-). unfold model_var in Hv. rewrite C0, C1 in Hv. unfold lin_obj, lin_cons, c74_x, c74_y in Hv.
        assert (G : forall n, In n [lin_obj; c74_x; NConst 9 (flit 2); NAdd 5 [c74_x; c74_y]; NConst 11 (flit 4); NAdd 8 [c74_x; NMul 7 c74_y (NConst 6 (flit 2))]; NConst 13 (flit 9)] -> occurs v n -> In (nid v) [0; 1]%nat).
        { clear. intros n Hn [Hv Hs]. unfold lin_obj, c74_x, c74_y in *. repeat (destruct Hn as [<-|Hn]); try (destruct Hn);
            repeat match goal with
            | Hs : sub _ (NVar _ _ _) |- _ => inversion Hs; clear Hs; subst
            | Hs : sub _ (NConst _ _) |- _ => inversion Hs; clear Hs; subst
            | Hs : sub _ (NMul _ _ _) |- _ => inversion Hs; clear Hs; subst
            | Hs : sub _ (NAdd _ _) |- _ => inversion Hs; clear Hs; subst
            | Hi : In _ _ |- _ => cbn [arguments In] in Hi
            | Hi : _ \/ _ |- _ => destruct Hi as [<-|Hi]
            | Hi : False |- _ => destruct Hi
            end; try discriminate Hv; cbn; auto. }
        destruct Hv as [Hv|(c & Hc & Hv)]; [exact (G _ (or_introl eq_refl) Hv)|].
        destruct Hc as [<-|[<-|[<-|[]]]]; cbn [clhs crhs] in Hv; destruct Hv as [Hv|Hv]; (refine (G _ _ Hv); cbn; tauto). }
    rewrite C0, C1. intros e ds He Hds. cbn [minimises] in He. subst e. unfold lin_cons in *.
    inversion Hds as [|? d0 ? ds0 (k0 & k1 & E0) Hd0]; subst. clear Hds. inversion Hd0 as [|? d1 ? ds1 (k2 & k3 & E1) Hd1]; subst. clear Hd0.
    inversion Hd1 as [|? d2 ? ds2 (k4 & k5 & E2) Hd2]; subst. clear Hd1. inversion Hd2; subst. clear Hd2. cbn [clhs crhs] in E0, E1, E2.
    assert (X0 : d0 = NAdd (Datatypes.S (Datatypes.S k0)) [c74_x; NConst (Datatypes.S k0) (flit (-2))]) by (vm_compute in E0; injection E0 as <- _; vm_compute; reflexivity).
    assert (X1 : d1 = NAdd (Datatypes.S (Datatypes.S k2)) [c74_x; c74_y; NConst (Datatypes.S k2) (flit (-4))]) by (vm_compute in E1; injection E1 as <- _; vm_compute; reflexivity).
    assert (X2 : d2 = NAdd (Datatypes.S (Datatypes.S k4)) [c74_x; NMul 7 c74_y (NConst 6 (flit 2)); NConst (Datatypes.S k4) (flit (-9))]) by (vm_compute in E2; injection E2 as <- _; vm_compute; reflexivity).
    rewrite X0, X1, X2. clear E0 E1 E2 X0 X1 X2 d0 d1 d2.
    split.
    { apply Forall_forall. intros n Hn i v Hs. unfold lin_obj, c74_x, c74_y in *. destruct Hn as [<-|[<-|[<-|[<-|[]]]]];
        repeat match goal with
        | Hs : sub _ (NVar _ _ _) |- _ => inversion Hs; clear Hs; subst
        | Hs : sub _ (NConst _ _) |- _ => inversion Hs; clear Hs; subst
        | Hs : sub _ (NMul _ _ _) |- _ => inversion Hs; clear Hs; subst
        | Hs : sub _ (NAdd _ _) |- _ => inversion Hs; clear Hs; subst
        | Hi : In _ _ |- _ => cbn [arguments In] in Hi
        | Hi : _ \/ _ |- _ => destruct Hi as [<-|Hi]
        | Hi : False |- _ => destruct Hi
        end; assumption. }
    split.
    { apply Forall_forall. intros n Hn. destruct Hn as [<-|[<-|[<-|[<-|[]]]]]; reflexivity. }
    split.
    { apply Forall2_cons; [|apply Forall2_cons; [|apply Forall2_cons; [|apply Forall2_nil]]]; cbn [ckd to_zero]; unfold c74_x, c74_y;
        cbn [real_value fold_right lin_z]; rewrite ?V2, ?V3, ?V5, ?V8, ?V11; lra. }
    unfold lin_obj, c74_x, c74_y. split; cbn [real_value fold_right lin_r lin_z]; rewrite ?V2, ?V3; lra.
  Qed.
End ExLin.
