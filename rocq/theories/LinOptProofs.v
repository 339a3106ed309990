(** Lemmas for C55: optimal points of linear models inside the default bounds. *)
From Verif Require Import Base Num Node NodeInd NodeDiff NodeStd Constraint Matrix Problem ModelStd Model
     ExprSpec World MapProofs Properties_Diff StdPropProofs EvalProofs DiffProofs GradProofs CompProofs PanicProofs OccProofs ConstrProofs PartsProofs ConstrSpec ConstrEquiv
     MatSpec MatrixProofs ProblemProofs BuildProofs BuildMain ModelSpec PointProofs EvalRun SlotProofs ConstrPanic EvalSpec
     Api ApiProofs ModelApi StdMain HistProofs ModelExample Properties_Constr StdFacts HistAff Properties_Std Properties_Feas Properties_Eval Properties_HashSol KktSpec KktProofs.
From Coq Require Import Reals Lra.
Local Open Scope R_scope.

(** The point between [x] and [y]. *)
Definition mix (t : R) (x y : list R) : list R := map (fun i => (1 - t) * nth i x 0 + t * nth i y 0) (seq 0 (length x)).
Lemma mix_len t x y : length (mix t x y) = length x.
Proof. unfold mix. rewrite map_length. apply seq_length. Qed.
Lemma mix_nth t x y j : length y = length x -> nth j (mix t x y) 0 = (1 - t) * nth j x 0 + t * nth j y 0.
Proof.
  intros Hl. destruct (le_lt_dec (length x) j) as [Hj|Hj].
  - rewrite !nth_overflow; [lra|lia|lia|rewrite mix_len; lia].
  - unfold mix. erewrite (nth_error_nth (map _ _)); [reflexivity|]. rewrite nth_error_map, nth_error_nth' with (d := 0%nat) by (rewrite seq_length; exact Hj).
    rewrite seq_nth by exact Hj. reflexivity.
Qed.
Lemma row_dot_mix (row : list (nat * X)) t x y zx zy : length y = length x ->
  row_dot row (pt x) = Some zx -> row_dot row (pt y) = Some zy -> row_dot row (pt (mix t x y)) = Some ((1 - t) * zx + t * zy).
Proof.
  intros Hl. revert zx zy. induction row as [|[c v] row IH]; intros zx zy Ex Ey.
  - cbn in *. injection Ex as <-. injection Ey as <-. f_equal. lra.
  - rewrite row_dot_step in Ex, Ey |- *. cbn [fst snd] in *. rewrite !pt_nth in *.
    destruct v as [v|]; [|discriminate]. destruct (row_dot row (pt x)) as [ax|]; [|discriminate]. destruct (row_dot row (pt y)) as [ay|]; [|discriminate].
    rewrite (IH ax ay eq_refl eq_refl). cbn in *. injection Ex as <-. injection Ey as <-. rewrite mix_nth by exact Hl. f_equal. lra.
Qed.
(** Costs times point. *)
Definition cost (c : list X) (x : list R) : X := xsum (map (fun cx => x2 Rmult (fst cx) (snd cx)) (combine c (pt x))).
Lemma cost_cons a c r x : cost (a :: c) (r :: x) = x2 Rplus (x2 Rmult a (Some r)) (cost c x).
Proof. unfold cost. cbn [pt map combine fst snd]. rewrite xsum_cons. reflexivity. Qed.
Lemma mix_cons t a x b y : mix t (a :: x) (b :: y) = ((1 - t) * a + t * b) :: mix t x y.
Proof. unfold mix. cbn [length seq map nth]. f_equal. rewrite <- seq_shift, map_map. reflexivity. Qed.
Lemma cost_mix c t x y zx zy : length y = length x -> cost c x = Some zx -> cost c y = Some zy -> cost c (mix t x y) = Some ((1 - t) * zx + t * zy).
Proof.
  revert x y zx zy. induction c as [|a c IH]; intros [|r x] [|s y] zx zy Hl Ex Ey; try discriminate Hl.
  - cbn in *. injection Ex as <-. injection Ey as <-. f_equal. lra.
  - cbn in *. injection Ex as <-. injection Ey as <-. f_equal. lra.
  - cbn in *. injection Ex as <-. injection Ey as <-. f_equal. lra.
  - rewrite mix_cons. rewrite cost_cons in *. destruct a as [a|]; [|discriminate].
    destruct (cost c x) as [ax|] eqn:E1; [|discriminate]. destruct (cost c y) as [ay|] eqn:E2; [|discriminate].
    rewrite (IH x y ax ay); auto. cbn in *. injection Ex as <-. injection Ey as <-. f_equal. lra.
Qed.

(** A small enough step stays within the bounds. *)
Lemma one_step B a b : Rabs a < B -> exists t, 0 < t <= 1 /\ forall u, 0 <= u <= t -> Rabs ((1 - u) * a + u * b) <= B.
Proof.
  intros Ha. set (D := Rabs (b - a)). assert (HD : 0 <= D) by apply Rabs_pos.
  set (t0 := (B - Rabs a) / (D + 1)). assert (Ht0 : 0 < t0) by (apply Rdiv_lt_0_compat; lra).
  exists (Rmin 1 t0). split; [split; [apply Rmin_glb_lt; lra|apply Rmin_l]|].
  intros u [Hu Hu']. assert (u <= t0) by (eapply Rle_trans; [exact Hu'|apply Rmin_r]).
  replace ((1 - u) * a + u * b) with (a + u * (b - a)) by lra. eapply Rle_trans; [apply Rabs_triang|].
  rewrite Rabs_mult, (Rabs_right u) by lra. fold D.
  assert (u * D <= t0 * (D + 1)). { apply Rmult_le_compat; lra. }
  assert (t0 * (D + 1) = B - Rabs a) by (unfold t0; field; lra). lra.
Qed.
Lemma small_step B (l : list (R * R)) : (forall a b, In (a, b) l -> Rabs a < B) ->
  exists t, 0 < t <= 1 /\ forall u, 0 <= u <= t -> forall a b, In (a, b) l -> Rabs ((1 - u) * a + u * b) <= B.
Proof.
  induction l as [|[a b] l IH]; intros Hl.
  - exists 1. split; [lra|]. intros u _ a b [].
  - destruct IH as (t1 & T1 & H1). { intros a' b' Hin. apply (Hl a' b'). right. exact Hin. }
    destruct (one_step B a b) as (t2 & T2 & H2). { apply (Hl a b). left. reflexivity. }
    exists (Rmin t1 t2). split; [split; [apply Rmin_glb_lt; lra|eapply Rle_trans; [apply Rmin_l|lra]]|].
    intros u [Hu Hu'] a' b' [Heq|Hin].
    + injection Heq as <- <-. apply H2. split; [lra|]. eapply Rle_trans; [exact Hu'|apply Rmin_r].
    + apply H1; [|exact Hin]. split; [lra|]. eapply Rle_trans; [exact Hu'|apply Rmin_l].
Qed.

(** Costs and rows as sums over the components. *)
Lemma cost_total c (g : nat -> R) x : (forall i, (i < length x)%nat -> nth_error c i = Some (Some (g i))) -> length c = length x ->
  cost c x = Some (total (map (fun i => g i * nth i x 0) (seq 0 (length x)))).
Proof.
  revert c g. induction x as [|r x IH]; intros c g Hc Hl.
  - destruct c; [reflexivity|discriminate].
  - destruct c as [|a c]; [discriminate|]. rewrite cost_cons. pose proof (Hc 0%nat (Nat.lt_0_succ _)) as H0. cbn in H0. injection H0 as ->.
    rewrite (IH c (fun i => g (Datatypes.S i))); [|intros i Hi; apply (Hc (Datatypes.S i)); cbn; lia|cbn in Hl; lia].
    cbn [length seq map]. rewrite total_cons, <- seq_shift, map_map. cbn. f_equal.
Qed.
Lemma total_scale {A} (f : A -> R) a l : total (map (fun i => a * f i) l) = a * total (map f l).
Proof. induction l as [|b l IH]; [unfold total; cbn; lra|]. cbn [map]. rewrite !total_cons, IH. lra. Qed.
Lemma total_swap {A B} (f : A -> B -> R) (l : list A) (l' : list B) :
  total (map (fun a => total (map (f a) l')) l) = total (map (fun b => total (map (fun a => f a b) l)) l').
Proof.
  induction l as [|a l IH]; cbn [map].
  - symmetry. apply total_zero. reflexivity.
  - rewrite total_cons, IH, <- total_plus. apply total_ext. intros b _. reflexivity.
Qed.
Lemma row_total (row : list (nat * X)) x z : row_dot row (pt x) = Some z -> Forall (fun e => (fst e < length x)%nat) row ->
  z = total (map (fun i => valx (xsum (map snd (filter (fun e => fst e =? i)%nat row))) * nth i x 0) (seq 0 (length x))) /\
  forall i, xsum (map snd (filter (fun e => fst e =? i)%nat row)) <> None.
Proof.
  revert z. induction row as [|[c v] row IH]; intros z Ez HF.
  - cbn in Ez. injection Ez as <-. split; [|discriminate]. symmetry. apply total_zero. intros i _. cbn. lra.
  - rewrite row_dot_step in Ez. cbn [fst snd] in Ez. rewrite pt_nth in Ez. destruct v as [v|]; [|discriminate].
    destruct (row_dot row (pt x)) as [z'|]; [|discriminate]. inversion HF as [|? ? Hc HF']; subst. cbn [fst] in Hc.
    destruct (IH z' eq_refl HF') as [Iz Id]. cbn in Ez. injection Ez as <-.
    assert (G : forall i, xsum (map snd (filter (fun e => fst e =? i)%nat ((c, Some v) :: row))) =
                          Some ((if (c =? i)%nat then v else 0) + valx (xsum (map snd (filter (fun e => fst e =? i)%nat row))))).
    { intros i. cbn [filter fst]. destruct (xsum (map snd (filter (fun e => fst e =? i)%nat row))) as [w|] eqn:Ew; [|destruct (Id i Ew)].
      destruct (c =? i)%nat; cbn [map snd valx].
      - transitivity (x2 Rplus (Some v) (Some w)); [rewrite xsum_cons; f_equal; exact Ew|reflexivity].
      - transitivity (Some w); [exact Ew|f_equal; lra]. }
    split; [|intros i; rewrite G; discriminate].
    rewrite (total_ext _ (fun i => (if (c =? i)%nat then v else 0) * nth i x 0 + valx (xsum (map snd (filter (fun e => fst e =? i)%nat row))) * nth i x 0)).
    + rewrite total_plus, <- Iz. f_equal. rewrite (total_one _ _ c (seq_NoDup _ _)).
      * rewrite Nat.eqb_refl. lra.
      * apply in_seq. lia.
      * intros i _ Hi. destruct (Nat.eqb_spec c i) as [->|]; [contradiction|lra].
    + intros i _. rewrite G. cbn [valx]. lra.
Qed.

Section LinOpt.
  Context `{HashOrd}.
  Variables (st : mstate X) (m : model X) (sp : std_prob X) (k' : nat).
  Hypothesis Hh : hist any_op st.
  Hypothesis Hm : In m (st_models st).
  Hypothesis E : std_problem m (st_k st) = Ok (sp, k').

  (** Every feasible valuation, in the default bounds or not, gives a point on the
      rows and within the bounds that come from constraints. *)
  Lemma extend (vs : valsX) : model_feasible m vs ->
    exists x, length x = m_nx (base_of (sp_prob sp)) /\
      (forall r b, nth_error (m_b (base_of (sp_prob sp))) r = Some b -> eqX (ax_row (sp_prob sp) r (pt x)) b) /\
      (forall v i r u, In (v, i) (sp_var2index sp) -> nth_error x i = Some r -> nth_error (m_u (base_of (sp_prob sp))) i = Some (Some u) ->
         u = 100000000 \/ r <= u) /\
      (forall v i r l, In (v, i) (sp_var2index sp) -> nth_error x i = Some r -> nth_error (m_l (base_of (sp_prob sp))) i = Some (Some l) ->
         l = - 100000000 \/ l <= r) /\
      forall v, model_var m v -> evaluate (at_point sp (pt x)) v = evaluate vs v.
  Proof.
    intros [Hmv Hhold].
    destruct (placed_all st m sp k' Hh Hm E) as (obj0 & cs0 & slots & Em0 & Hp & _).
    pose proof (tightest_of st m sp k' obj0 cs0 slots Hh Hm E Em0 Hp) as Ht.
    destruct (C24_bijection st m sp k' Hh Hm E x_nm1) as (HB0 & _ & HA & HB & _).
    pose proof (nx_len st m sp k' Hh Hm E) as Hnx.
    destruct (hist_run st m sp k' Hh Hm E) as (S & obj & S' & eo & ke & ko & ps & ar & jr & uc & lc & Hi & Mi & HW & Em & R & Esp & _).
    rewrite Em0 in Em. inversion Em; subst obj0 cs0; clear Em.
    set (vars := problem_vars k' obj (cat ps)) in *.
    assert (Hnd : nodupk ptr_eq vars) by exact (run_vars_nodup _ _ _ _ _ _ _ _ _ _ _ _ _ R).
    assert (Hvar : Forall (fun v => is_var v = true) vars).
    { apply Forall_forall. intros w Hw. apply (run_vars_world _ _ _ _ _ _ _ _ _ _ _ _ _ w R Hw). }
    destruct (sr_w2 _ _ _ _ _ _ _ _ _ _ _ _ _ R) as (S2 & I2 & _ & W2 & _).
    assert (Hc : Forall (fun c => S2 (clhs c) /\ S2 (crhs c)) (md_constraints m)).
    { eapply Forall_impl; [|apply mi_cons with (1 := Mi)]. intros c []; auto. }
    destruct (parts_complete false S2 (md_constraints m) 0 0 ko ps ar jr k' vs W2 Hc (sr_parts _ _ _ _ _ _ _ _ _ _ _ _ _ R) Hhold)
      as (vs' & Hsame & (Hrow & Hf & Hu & Hl) & Hslack).
    pose proof (sr_le _ _ _ _ _ _ _ _ _ _ _ _ _ R) as Hle.
    assert (Hold : forall v, model_var m v -> is_var v = true /\ (nid v < st_k st)%nat).
    { intros v [Hv|(c & Hc' & Hv)].
      - assert (Ho : exists f, S f /\ occurs v f).
        { destruct Mi as [Mo _ _]. destruct (md_objective m); [eauto|eauto|destruct Hv]. }
        destruct Ho as (f & Sf & [Hv1 Hv2]). split; [exact Hv1|]. apply (w_lt _ _ _ HW). exact (world_sub _ _ _ _ _ HW Sf Hv2).
      - pose proof (mi_cons _ _ Mi) as Mc. rewrite Forall_forall in Mc. destruct (Mc c Hc') as [Sl Sr].
        destruct Hv as [[Hv1 Hv2]|[Hv1 Hv2]]; (split; [exact Hv1|]); apply (w_lt _ _ _ HW);
          [exact (world_sub _ _ _ _ _ HW Sl Hv2)|exact (world_sub _ _ _ _ _ HW Sr Hv2)]. }
    assert (Hkeep : forall v, model_var m v -> evaluate vs' v = evaluate vs v).
    { intros v Hv. destruct (Hold v Hv) as [H1 H2]. symmetry. apply Hsame; [exact H1|lia]. }
    assert (Hin : forall v, In v vars -> exists r, evaluate vs' v = Some r).
    { intros v Hv. assert (Hv' : In v (map fst (sp_var2index sp))) by (rewrite Esp; cbn [sp_var2index]; rewrite enum_keys; exact Hv).
      destruct (HB v Hv') as [Hmod|((Hk1 & Hk2) & nm & Env)].
      - destruct (Hmv v Hmod) as (r & Er & Hint). exists r. rewrite (Hkeep v Hmod). exact Er.
      - assert (Hpk : In v (prop_keys (cat ps)) /\ (ko <= nid v)%nat).
        { destruct (proj1 (run_vars_in _ _ _ _ _ _ _ _ _ _ _ _ _ v R) Hv) as [Ho|Hpk].
          - exfalso. assert (Hmv' : model_var m v).
            { left. apply (obj_exp_occurs v _ _ _ _ x_nm1 (sr_obj _ _ _ _ _ _ _ _ _ _ _ _ _ R)) in Ho. exact Ho. }
            destruct (Hold v Hmv'). lia.
          - split; [exact Hpk|].
            destruct (parts_keys false S2 _ 0 0 ko ps ar jr k' v W2 Hc (sr_parts _ _ _ _ _ _ _ _ _ _ _ _ _ R) Hpk) as [Hk|[Hk _]]; [|lia].
            exfalso. destruct (Hold v (or_intror Hk)). lia. }
        destruct Hpk as [Hpk Hko]. destruct (Hslack v Hpk Hko) as (c & Hc' & Ev).
        rewrite Forall_forall in Hhold. destruct (Hhold c Hc') as (a & b & Ea & Eb & _).
        rewrite Ea, Eb in Ev. exists (a - b). exact Ev. }
    set (val := fun v => match evaluate vs' v with Some r => r | None => 0 end).
    set (x := map val vars).
    assert (Hpt : pt x = map (fun v => evaluate vs' v) vars).
    { unfold pt, x. rewrite map_map. apply map_ext_in. intros v Hv. unfold val.
      destruct (Hin v Hv) as (r & ->). reflexivity. }
    assert (Hev : forall v, In v vars -> evaluate (point_vals vars (pt x)) v = evaluate vs' v).
    { intros v Hv. rewrite Hpt. apply point_of_vals; auto. }
    assert (Hat : at_point sp (pt x) = point_vals vars (pt x)) by (rewrite Esp; reflexivity).
    assert (Hxl : length x = m_nx (base_of (sp_prob sp))).
    { rewrite Hnx, Esp. cbn [sp_var2index]. rewrite v2i_len. apply map_length. }
    assert (Hxi : forall v i r, In (v, i) (sp_var2index sp) -> nth_error x i = Some r -> evaluate vs' v = Some r).
    { intros v i r Hv Hr. rewrite Esp in Hv. cbn [sp_var2index] in Hv. apply enum_in in Hv. fold vars in Hv. unfold x in Hr. rewrite nth_error_map, Hv in Hr. cbn in Hr.
      injection Hr as <-. destruct (Hin v (nth_error_In _ _ Hv)) as [r Er]. unfold val. rewrite Er. reflexivity. }
    destruct (base_shape k' (md_init m) obj (cat ps)) as (_ & Eb0 & _ & _ & _ & _ & En).
    exists x. split; [exact Hxl|]. split; [|split; [|split]].
    - intros r b Hb. rewrite Esp in Hb |- *. cbn [sp_prob] in *. rewrite Eb0 in Hb.
      rewrite (ax_row_lin _ _ _ _ _ _ _ _ _ _ _ _ _ r (pt x) R). specialize (Hrow r b Hb). rewrite Nat.add_0_l in Hrow.
      replace (lin (point_vals vars (pt x)) (lrow r (cs_a (cat ps)))) with (lin vs' (lrow r (cs_a (cat ps)))); [exact Hrow|].
      unfold lin. f_equal. apply map_ext_in. intros kv Hkv. f_equal. symmetry. apply Hev.
      pose proof (sr_in _ _ _ _ _ _ _ _ _ _ _ _ _ R) as [_ Pa _ _ _ _ _]. rewrite Forall_forall in Pa.
      apply (run_vars_in _ _ _ _ _ _ _ _ _ _ _ _ _ _ R). right. unfold lrow in Hkv.
      apply in_map_iff in Hkv as (e & <- & Hin'). apply filter_In in Hin' as [Hin' _]. apply (Pa e Hin').
    - intros v i r u Hv Hr Eu. destruct (Ht v i Hv) as ((u' & Eu' & _ & _ & Hcu) & _). rewrite Eu in Eu'. injection Eu' as <-.
      destruct (hget Nat.eqb i (sp_ucons sp)) as [c|]; [right|left; apply Hcu].
      destruct Hcu as (l1 & l2 & Els & _). rewrite Forall_forall in Hu. destruct (Hu (v, Some u, c)) as (a & b & Ea & Eb & Hab).
      { rewrite (pl_uppers _ _ _ _ _ Hp), Els. apply in_or_app; cbn; auto. }
      cbn [fst snd] in *. rewrite (Hxi v i r Hv Hr) in Ea. injection Ea as <-. injection Eb as <-. exact Hab.
    - intros v i r u Hv Hr Eu. destruct (Ht v i Hv) as (_ & (u' & Eu' & _ & _ & Hcu)). rewrite Eu in Eu'. injection Eu' as <-.
      destruct (hget Nat.eqb i (sp_lcons sp)) as [c|]; [right|left; apply Hcu].
      destruct Hcu as (l1 & l2 & Els & _). rewrite Forall_forall in Hl. destruct (Hl (v, Some u, c)) as (a & b & Ea & Eb & Hab).
      { rewrite (pl_lowers _ _ _ _ _ Hp), Els. apply in_or_app; cbn; auto. }
      cbn [fst snd] in *. rewrite (Hxi v i r Hv Hr) in Eb. injection Ea as <-. injection Eb as <-. exact Hab.
    - intros v Hv. rewrite Hat, Hev; [apply Hkeep; exact Hv|].
      apply HA in Hv. rewrite Esp in Hv. cbn [sp_var2index] in Hv. rewrite enum_keys in Hv. exact Hv.
  Qed.

  (** A linear problem: costs, values, no integer components. *)
  Lemma lp_facts : class_of (sp_prob sp) = ClLp ->
    exists (c : list X) (shift : X), length c = m_nx (base_of (sp_prob sp)) /\
      (forall x, length x = m_nx (base_of (sp_prob sp)) ->
         exists q, minlp_evaluate (base_of (sp_prob sp)) (pt x) = Ok q /\ b_phi (m_bufs q) = cost c x /\ b_gphi (m_bufs q) = c /\
                   b_f (m_bufs q) = [] /\ obj_value m (at_point sp (pt x)) = x2 Rplus (cost c x) shift) /\
      (forall i, nth_error (m_p (base_of (sp_prob sp))) i <> Some true).
  Proof.
    intros Hcl. destruct (C27_objective st m sp k' Hh Hm E) as (shift & _ & _ & Hobj).
    destruct (hist_run st m sp k' Hh Hm E) as (S & obj & S' & eo & ke & ko & ps & ar & jr & uc & lc & Hi & Mi & HW & Em & R & Esp & _).
    assert (Hpl : p_linear obj (cat ps) = true /\ no_int k' obj (cat ps) = true).
    { rewrite Esp in Hcl. cbn [sp_prob] in Hcl. unfold p_problem in Hcl. destruct (p_linear obj (cat ps)), (no_int k' obj (cat ps)); try discriminate Hcl. auto. }
    destruct Hpl as [Hlin Hint].
    destruct (base_shape k' (md_init m) obj (cat ps)) as (_ & _ & _ & _ & _ & _ & En).
    exists (p_cvec k' obj (cat ps)), shift. split; [|split].
    - rewrite Esp. cbn [sp_prob]. rewrite En. unfold p_cvec. apply map_length.
    - intros x Hx. destruct (Hobj x Hx) as (phi & (q0 & Q0 & P0) & Ho & Hphi).
      destruct (run_evaluate _ _ _ _ _ _ _ _ _ _ _ _ _ _ (pt x) R (ev_start _)) as (q & Eq & Ebf & _).
      { unfold pt. rewrite map_length, Hx, Esp. exact En. }
      exists q. rewrite Esp in Q0, Hphi |- *. cbn [sp_prob] in *. rewrite Eq in Q0. injection Q0 as <-. split; [exact Eq|].
      unfold p_problem in Hphi. rewrite Hlin, Hint in Hphi. cbn [lp_milp milp_c] in Hphi.
      split; [rewrite P0; exact Hphi|]. rewrite Ebf. unfold bufs_at. rewrite Hlin. cbn [b_gphi b_f].
      split; [reflexivity|]. split; [reflexivity|]. rewrite <- Esp. rewrite Ho. f_equal. exact Hphi.
    - intros i Hp. assert (Hl : (i < m_nx (base_of (sp_prob sp)))%nat).
      { destruct (C29_well_formed st m (obj, cat ps) k' Hh Hm Em) as (sp' & E' & Hwf). rewrite E in E'. injection E' as <-.
        rewrite (nx_len st m sp k' Hh Hm E), <- (wf_p _ Hwf). apply nth_error_Some. congruence. }
      destruct (var_at st m sp k' Hh Hm E i Hl) as [v Hv]. rewrite (C28_mask st m sp k' v i Hh Hm E Hv) in Hp. injection Hp as Hp.
      rewrite Esp in Hv. cbn [sp_var2index] in Hv. apply enum_in in Hv. unfold no_int in Hint. apply negb_true_iff in Hint.
      assert (Ht : existsb is_integer (problem_vars k' obj (cat ps)) = true) by (apply existsb_exists; exists v; split; [exact (nth_error_In _ _ Hv)|exact Hp]). congruence.
  Qed.

  (** An optimal point strictly inside the default bounds beats every feasible
      valuation of a linear model. *)
  Lemma lp_global x vs b : class_of (sp_prob sp) = ClLp -> optimal (sp_prob sp) x -> (forall i xi, nth_error x i = Some xi -> Rabs xi < 100000000) ->
    model_feasible m vs -> obj_value m vs = Some b ->
    exists a, obj_value m (at_point sp (pt x)) = Some a /\ a <= b.
  Proof.
    intros Hcl (Hf & a & (qa & Qa & Pa) & Hopt) H8 Hvs Hb.
    destruct (lp_facts Hcl) as (c & shift & Lc & Hev & Hint). destruct (extend vs Hvs) as (y & Ly & Hrow & Hup & Hlo & Hag).
    assert (Eo : obj_value m (at_point sp (pt y)) = Some b).
    { rewrite <- Hb. unfold obj_value. assert (G : forall f, (forall v, occurs v f -> model_var m v) ->
        evaluate (at_point sp (pt y)) f = evaluate vs f).
      { intros f Hocc. apply evaluate_ext. intros v Hv. apply Hag. auto. }
      unfold model_var in G. destruct (md_objective m) as [f|f|]; [apply G; auto|f_equal; apply G; auto|reflexivity]. }
    pose proof (proj1 Hf) as Lx.
    destruct (Hev x Lx) as (qx & Qx & Px & _ & _ & Ox). destruct (Hev y Ly) as (qy & _ & _ & _ & _ & Oy).
    rewrite Qa in Qx. injection Qx as <-. rewrite Px in Pa. rewrite Pa in Ox. rewrite Eo in Oy.
    destruct (cost c y) as [cy|] eqn:Ecy; [|discriminate]. destruct shift as [s|]; [|discriminate]. cbn in Oy, Ox. injection Oy as Oy.
    exists (a + s). split; [exact Ox|].
    destruct (small_step 100000000 (combine x y)) as (t & Ht & Hsm).
    { intros a0 b0 Hin. apply in_combine_l in Hin. apply In_nth_error in Hin as [i Hi]. exact (H8 i a0 Hi). }
    specialize (Hsm t ltac:(lra)). set (z := mix t x y).
    assert (Lxy : length y = length x) by congruence.
    assert (Lz : length z = m_nx (base_of (sp_prob sp))) by (unfold z; rewrite mix_len; exact Lx).
    destruct Hf as (_ & Rx & _ & Bx).
    assert (Hz : feasible (sp_prob sp) z).
    { split; [exact Lz|]. split; [|split].
      - intros r b0 Eb0. destruct (Rx r b0 Eb0) as (u & Eu & Ebu). destruct (Hrow r b0 Eb0) as (u' & Eu' & Ebu').
        exists u. split; [|exact Ebu]. unfold ax_row in *. unfold z. rewrite (row_dot_mix _ t x y u u' Lxy Eu Eu').
        assert (u = u') by congruence. subst u'. f_equal. lra.
      - destruct (Hev z Lz) as (q & Eq & _ & _ & Ef & _). exists q. split; [exact Eq|]. rewrite Ef. constructor.
      - intros i r Hr. assert (Hl : (i < length x)%nat) by (rewrite <- (mix_len t x y); apply nth_error_Some; fold z; congruence).
        destruct (var_at st m sp k' Hh Hm E i ltac:(rewrite <- Lx; exact Hl)) as [v Hv].
        destruct (nth_error x i) as [xi|] eqn:Exi; [|apply nth_error_None in Exi; lia].
        destruct (nth_error y i) as [yi|] eqn:Eyi; [|apply nth_error_None in Eyi; lia].
        assert (Er : r = (1 - t) * xi + t * yi).
        { apply (nth_error_nth _ _ 0) in Hr. unfold z in Hr. rewrite mix_nth in Hr by exact Lxy.
          rewrite (nth_error_nth _ _ _ Exi), (nth_error_nth _ _ _ Eyi) in Hr. symmetry. exact Hr. }
        assert (Hbz : Rabs r <= 100000000).
        { rewrite Er. apply Hsm. apply (nth_error_In (combine x y) i). clear -Exi Eyi. revert y i Exi Eyi. induction x as [|e x IH]; intros [|f y] [|i] E1 E2; cbn in *; try discriminate.
          - congruence.
          - apply IH; assumption. }
        assert (Hbz' : -100000000 <= r <= 100000000) by (revert Hbz; unfold Rabs; destruct (Rcase_abs r); lra).
        destruct (Bx i xi Exi) as [(l & u & El & Eu & (l' & xi' & -> & Exl & Hl1) & (xi'' & u' & Exu & -> & Hu1)) _].
        injection Exl as <-. injection Exu as <-.
        split; [|intros Hp; destruct (Hint i Hp)].
        exists (Some l'), (Some u'). split; [exact El|]. split; [exact Eu|]. split.
        + exists l', r. split; [reflexivity|]. split; [reflexivity|].
          destruct (Hlo v i yi l' Hv Eyi El) as [->|Hly]; [lra|]. rewrite Er.
          assert (0 <= (1 - t) * (xi - l')) by (apply Rmult_le_pos; lra). assert (0 <= t * (yi - l')) by (apply Rmult_le_pos; lra). lra.
        + exists r, u'. split; [reflexivity|]. split; [reflexivity|].
          destruct (Hup v i yi u' Hv Eyi Eu) as [->|Huy]; [lra|]. rewrite Er.
          assert (0 <= (1 - t) * (u' - xi)) by (apply Rmult_le_pos; lra). assert (0 <= t * (u' - yi)) by (apply Rmult_le_pos; lra). lra. }
    destruct (Hev z Lz) as (qz & Qz & Pz & _). unfold z in Pz. rewrite (cost_mix c t x y a cy Lxy Pa Ecy) in Pz.
    specialize (Hopt z ((1 - t) * a + t * cy) Hz (ex_intro _ qz (conj Qz Pz))).
    assert (0 <= t * (cy - a)) by lra. assert (a <= cy).
    { destruct (Rle_or_lt a cy) as [|Hlt]; [assumption|]. exfalso. assert (0 < t * (a - cy)) by (apply Rmult_lt_0_compat; lra). lra. }
    lra.
  Qed.

  (** The first-order conditions are sufficient for linear problems. *)
  Lemma lp_kkt x lam nu mu pi : class_of (sp_prob sp) = ClLp -> kkt (sp_prob sp) x lam nu mu pi -> optimal (sp_prob sp) x.
  Proof.
    intros Hcl Hk. destruct Hk as [Hf Hlam Hmu Hpi (q & Eq & Hnu & Hst) Hsg Hslk]. split; [exact Hf|].
    destruct (lp_facts Hcl) as (c & shift & Lc & Hev & Hint). pose proof (proj1 Hf) as Lx.
    destruct (Hev x Lx) as (qx & Qx & Px & Gx & Fx & Ox). rewrite Eq in Qx. injection Qx as <-.
    rewrite Fx in Hnu. destruct nu; [|discriminate Hnu]. clear Hnu Ox Fx.
    set (g := fun i => valx (nth i c None)).
    assert (Hg : forall i, (i < length x)%nat -> nth_error c i = Some (Some (g i))).
    { intros i Hi. destruct (Hst i Hi) as (g0 & _ & _ & Eg & _). rewrite Gx in Eg. unfold g. rewrite (nth_error_nth _ _ _ Eg). exact Eg. }
    assert (Lcx : length c = length x) by congruence.
    exists (total (map (fun i => g i * nth i x 0) (seq 0 (length x)))). split; [exists q; split; [exact Eq|]; rewrite Px; apply cost_total; assumption|].
    intros y b Hy (qy & Qy & Py). pose proof (proj1 Hy) as Ly. destruct (Hev y Ly) as (qy' & Qy' & Py' & _). rewrite Qy in Qy'. injection Qy' as <-.
    assert (Lxy : length y = length x) by congruence.
    rewrite Py' in Py. rewrite (cost_total c g y) in Py; [|rewrite Lxy; exact Hg|exact (eq_trans Lcx (eq_sym Lxy))]. injection Py as <-. rewrite Lxy.
    set (A := fun r i => valx (coo_at (m_a (base_of (sp_prob sp))) r i)).
    (* every row, at a feasible point *)
    assert (HA : forall w, feasible (sp_prob sp) w -> forall r b0, nth_error (m_b (base_of (sp_prob sp))) r = Some b0 ->
               b0 = Some (total (map (fun i => A r i * nth i w 0) (seq 0 (length w)))) /\ forall i, coo_at (m_a (base_of (sp_prob sp))) r i = Some (A r i)).
    { intros w (Lw & Rw & _) r b0 Eb. destruct (Rw r b0 Eb) as (z & Ez & ->). unfold ax_row in Ez.
      destruct (row_total _ _ _ Ez) as [-> Hd].
      - destruct (hist_run st m sp k' Hh Hm E) as (S & obj & S' & eo & ke & ko & ps & ar & jr & uc & lc & Hi & Mi & HW & Em & R & Esp & _).
        destruct (C29_well_formed st m (obj, cat ps) k' Hh Hm Em) as (sp' & E' & Hwf). rewrite E in E'. injection E' as <-.
        destruct (wf_a _ Hwf) as (_ & _ & _ & _ & _ & Hc). apply Forall_forall. intros e He. unfold row_of in He.
        apply in_map_iff in He as ([[a1 a2] a3] & <- & He). apply filter_In in He as [He _]. cbn [fst snd].
        unfold entries in He. rewrite Lw, (nx_len st m sp k' Hh Hm E). rewrite Forall_forall in Hc. apply Hc.
        apply in_combine_l in He. apply in_combine_r in He. exact He.
      - assert (Hc : forall i, coo_at (m_a (base_of (sp_prob sp))) r i = Some (A r i)).
        { intros i. unfold A. specialize (Hd i). rewrite <- coo_at_row in Hd. destruct (coo_at (m_a (base_of (sp_prob sp))) r i); [reflexivity|contradiction]. }
        split; [|exact Hc]. f_equal. apply total_ext. intros i _. unfold A. rewrite coo_at_row. reflexivity. }
    assert (HAx : forall r, (r < length lam)%nat -> exists b0, nth_error (m_b (base_of (sp_prob sp))) r = Some b0).
    { intros r Hr. destruct (nth_error (m_b (base_of (sp_prob sp))) r) as [b0|] eqn:Eb; [eauto|]. apply nth_error_None in Eb. lia. }
    (* the gradient *)
    assert (Hgr : forall i, (i < length x)%nat -> g i = total (map (fun r => A r i * nth r lam 0) (seq 0 (length lam))) - nth i mu 0 + nth i pi 0).
    { intros i Hi. destruct (Hst i Hi) as (g0 & aty & jtn & Eg & Ea & Ej & Hz). rewrite Gx, (Hg i Hi) in Eg. injection Eg as <-.
      change (tr_mul (b_j (m_bufs q)) [] i) with (Some 0) in Ej. injection Ej as <-.
      rewrite (tr_mul_total _ _ _ (fun r => A r i)) in Ea; [injection Ea as <-; lra|].
      intros r Hr. destruct (HAx r Hr) as [b0 Eb]. apply (HA x Hf r b0 Eb). }
    assert (Hd : total (map (fun i => g i * nth i y 0) (seq 0 (length x))) - total (map (fun i => g i * nth i x 0) (seq 0 (length x))) =
                 total (map (fun i => (nth i pi 0 - nth i mu 0) * (nth i y 0 - nth i x 0)) (seq 0 (length x)))).
    { assert (Hsw : forall w, total (map (fun i => total (map (fun r => A r i * nth r lam 0) (seq 0 (length lam))) * nth i w 0) (seq 0 (length x))) =
                              total (map (fun r => nth r lam 0 * total (map (fun i => A r i * nth i w 0) (seq 0 (length x)))) (seq 0 (length lam)))).
      { intros w. rewrite (total_ext _ (fun i => total (map (fun r => nth r lam 0 * (A r i * nth i w 0)) (seq 0 (length lam))))).
        - rewrite total_swap. apply total_ext. intros r _. apply total_scale.
        - intros i _. rewrite Rmult_comm, <- total_scale. apply total_ext. intros r _. lra. }
      assert (Hsp : forall w, total (map (fun i => g i * nth i w 0) (seq 0 (length x))) =
                 total (map (fun r => nth r lam 0 * total (map (fun i => A r i * nth i w 0) (seq 0 (length x)))) (seq 0 (length lam))) +
                 total (map (fun i => (nth i pi 0 - nth i mu 0) * nth i w 0) (seq 0 (length x)))).
      { intros w. rewrite <- Hsw, <- total_plus. apply total_ext. intros i Hi. apply in_seq in Hi. rewrite Hgr by lia. lra. }
      rewrite !Hsp.
      assert (Hr : forall r, In r (seq 0 (length lam)) -> nth r lam 0 * total (map (fun i => A r i * nth i y 0) (seq 0 (length x))) =
                                                       nth r lam 0 * total (map (fun i => A r i * nth i x 0) (seq 0 (length x)))).
      { intros r Hr. apply in_seq in Hr. destruct (HAx r ltac:(lia)) as [b0 Eb]. destruct (HA x Hf r b0 Eb) as [E1 _]. destruct (HA y Hy r b0 Eb) as [E2 _].
        rewrite Lxy in E2. rewrite E1 in E2. injection E2 as E2. f_equal. symmetry. exact E2. }
      rewrite (total_ext _ _ _ Hr).
      rewrite (total_ext (fun i => (nth i pi 0 - nth i mu 0) * (nth i y 0 - nth i x 0)) (fun i => (nth i pi 0 - nth i mu 0) * nth i y 0 + - ((nth i pi 0 - nth i mu 0) * nth i x 0))) by (intros; lra).
      rewrite total_plus, total_opp. lra. }
    assert (Hpos : 0 <= total (map (fun i => (nth i pi 0 - nth i mu 0) * (nth i y 0 - nth i x 0)) (seq 0 (length x)))).
    { assert (G : forall l, (forall i, In i l -> (i < length x)%nat) -> 0 <= total (map (fun i => (nth i pi 0 - nth i mu 0) * (nth i y 0 - nth i x 0)) l)).
      { induction l as [|i l IH]; intros Hl; [unfold total; cbn; lra|]. cbn [map]. rewrite total_cons.
        assert (Hi : (i < length x)%nat) by (apply Hl; left; reflexivity).
        assert (0 <= total (map (fun i => (nth i pi 0 - nth i mu 0) * (nth i y 0 - nth i x 0)) l)) by (apply IH; intros j Hj; apply Hl; right; exact Hj).
        destruct (nth_error x i) as [xi|] eqn:Exi; [|apply nth_error_None in Exi; lia].
        destruct (nth_error y i) as [yi|] eqn:Eyi; [|apply nth_error_None in Eyi; lia].
        rewrite (nth_error_nth _ _ _ Exi), (nth_error_nth _ _ _ Eyi).
        destruct Hf as (_ & _ & _ & Bx). destruct Hy as (_ & _ & _ & By).
        destruct (Bx i xi Exi) as [(l1 & u1 & El & Eu & (l' & xi' & -> & Exl & Hl1) & (xi'' & u' & Exu & -> & Hu1)) _]. injection Exl as <-. injection Exu as <-.
        destruct (By i yi Eyi) as [(l2 & u2 & El2 & Eu2 & (l2' & yi' & E2 & Eyl & Hl2) & (yi'' & u2' & Eyu & E3 & Hu2)) _]. injection Eyl as <-. injection Eyu as <-.
        rewrite El in El2. injection El2 as <-. rewrite Eu in Eu2. injection Eu2 as <-. injection E2 as <-. injection E3 as <-.
        destruct (Hslk i xi l' u' Exi El Eu) as [S1 S2]. destruct (Hsg i Hi) as [G1 G2].
        assert (0 <= nth i pi 0 * (yi - l')) by (apply Rmult_le_pos; lra). assert (0 <= nth i mu 0 * (u' - yi)) by (apply Rmult_le_pos; lra).
        lra. }
      apply G. intros i Hi. apply in_seq in Hi. lia. }
    lra.
  Qed.
End LinOpt.
