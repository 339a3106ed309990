(** Properties C24, C25, C28, C29, C31, C32: the standard problem of a model. *)
From Verif Require Import Base Num Node NodeInd NodeDiff NodeStd Constraint Matrix Problem ModelStd Model
     ExprSpec World MapProofs Properties_Diff StdPropProofs EvalProofs GradProofs CompProofs PanicProofs OccProofs ConstrProofs PartsProofs ConstrSpec ConstrEquiv
     MatSpec MatrixProofs ProblemProofs BuildProofs BuildMain ModelSpec PointProofs SlotProofs ConstrPanic
     Api ApiProofs ModelApi StdMain HistProofs ModelExample Properties_Constr StdFacts HistAff.
From Coq Require Import Reals Lra Floats.SpecFloat Sorted.

Lemma hist_run {T} `{Num T} `{HashOrd} (st : mstate T) m sp k' :
  hist any_op st -> In m (st_models st) -> std_problem m (st_k st) = Ok (sp, k') ->
  exists S obj S' eo ke ko ps ar jr uc lc,
    hinv false st S /\ model_in S m /\ world false (st_k st) S /\
    model_std m (st_k st) = Ok ((obj, cat ps), k') /\
    std_run false (st_k st) S m k' S' eo ke obj ko ps ar jr /\
    sp = mk_std_prob (p_problem k' (md_init m) obj (cat ps)) (v2i_of (problem_vars k' obj (cat ps)))
                      (enum (cs_ca (cat ps))) (enum (cs_cj (cat ps))) uc lc /\
    (forall i v, nth_error (problem_vars k' obj (cat ps)) i = Some v ->
       hget Nat.eqb i uc = snd (bfold (fun val cur => nleb val cur) v (cs_u (cat ps)) (INF, None))) /\
    nodupk Nat.eqb (map fst uc) /\ Forall (fun ic => fst ic < length (problem_vars k' obj (cat ps))) uc /\
    (forall i v, nth_error (problem_vars k' obj (cat ps)) i = Some v ->
       hget Nat.eqb i lc = snd (bfold (fun val cur => nleb cur val) v (cs_l (cat ps)) (nneg INF, None))) /\
    nodupk Nat.eqb (map fst lc) /\ Forall (fun ic => fst ic < length (problem_vars k' obj (cat ps))) lc.
Proof.
  intros Hh Hm E. destruct (hist_inv false st Hh) as (S & Hi).
  pose proof (hi_models _ _ _ Hi) as G. rewrite Forall_forall in G. destruct (G m Hm) as (Mi & _ & _).
  pose proof (hi_world _ _ _ Hi) as HW.
  destruct (std_problem_run false _ S m sp k' HW Mi E) as (obj & S' & eo & ke & ko & ps & ar & jr & uc & lc & Em & R & Esp & Q).
  exists S, obj, S', eo, ke, ko, ps, ar, jr, uc, lc. tauto.
Qed.

Section VarIndex.
  Context {T : Type} `{Num T}.
  Lemma v2i_snd (vars : list (node T)) : map snd (v2i_of vars) = seq 0 (length vars).
  Proof.
    unfold v2i_of, enum. rewrite map_map. cbn [snd]. generalize 0 as s.
    induction vars as [|v l IH]; intros s; cbn; auto. f_equal; auto.
  Qed.
  Lemma v2i_len (vars : list (node T)) : length (v2i_of vars) = length vars.
  Proof. rewrite <- (map_length fst), enum_keys. reflexivity. Qed.
  Lemma enum_len {A} (l : list A) : length (enum l) = length l.
  Proof. unfold enum. rewrite combine_length, seq_length. lia. Qed.
  Lemma enum_fst {A} (l : list A) : map fst (enum l) = seq 0 (length l).
  Proof. unfold enum. generalize 0 as s. induction l as [|a l IH]; intros s; cbn; auto. f_equal; auto. Qed.
  Lemma sorted_nth (l : list (node T)) : StronglySorted name_le l ->
    forall i j v w, i < j -> nth_error l i = Some v -> nth_error l j = Some w -> name_le v w.
  Proof.
    induction 1 as [|a l Hl IH Ha]; intros i j v w Hij Hi Hj; [destruct i; discriminate|].
    destruct j as [|j]; [lia|]. cbn in Hj. destruct i as [|i]; cbn in Hi.
    - inversion Hi; subst. rewrite Forall_forall in Ha. apply Ha. eapply nth_error_In; eauto.
    - apply (IH i j); auto. lia.
  Qed.
End VarIndex.

(** ** C24 Variable indexing *)
Theorem C24_bijection {T} `{Num T} `{HashOrd} (st : mstate T) m sp k' :
  hist any_op st -> In m (st_models st) -> std_problem m (st_k st) = Ok (sp, k') ->
  neqb (@nm1 T _) n0 = false ->
  map snd (sp_var2index sp) = seq 0 (m_nx (base_of (sp_prob sp))) /\
  (forall v w i j, In (v, i) (sp_var2index sp) -> In (w, j) (sp_var2index sp) -> nid v = nid w -> v = w /\ i = j) /\
  (forall v, model_var m v -> In v (map fst (sp_var2index sp))) /\
  (forall v, In v (map fst (sp_var2index sp)) ->
     model_var m v \/ (st_k st <= nid v < k' /\ exists nm, v = NVar (nid v) nm VarContinuous)) /\
  (forall v w i j, In (v, i) (sp_var2index sp) -> In (w, j) (sp_var2index sp) -> i < j ->
     String.leb (name v) (name w) = true).
Proof.
  intros Hh Hm E Hnm.
  destruct (hist_run st m sp k' Hh Hm E) as (S & obj & S' & eo & ke & ko & ps & ar & jr & uc & lc & Hi & Mi & HW & Em & R & -> & _).
  cbn [sp_var2index sp_prob]. set (vars := problem_vars k' obj (cat ps)).
  pose proof (run_vars_nodup _ _ _ _ _ _ _ _ _ _ _ _ _ R) as Hnd. fold vars in Hnd.
  destruct (base_shape k' (md_init m) obj (cat ps)) as (_ & _ & _ & _ & _ & _ & En). fold vars in En.
  assert (Hobj := sr_obj _ _ _ _ _ _ _ _ _ _ _ _ _ R).
  pose proof (sr_le _ _ _ _ _ _ _ _ _ _ _ _ _ R) as Hle.
  destruct (sr_w2 _ _ _ _ _ _ _ _ _ _ _ _ _ R) as (S2 & I2 & _ & W2 & _).
  assert (Hc : Forall (fun c => S2 (clhs c) /\ S2 (crhs c)) (md_constraints m)).
  { eapply Forall_impl; [|apply mi_cons with (1 := Mi)]. intros c []; auto. }
  split; [rewrite v2i_snd, En; reflexivity|]. split; [|split; [|split]].
  - intros v w i j Hv Hw Eid. apply enum_in in Hv. apply enum_in in Hw.
    assert (v = w) as ->.
    { pose proof (proj1 (run_vars_world _ _ _ _ _ _ _ _ _ _ _ _ _ _ R (nth_error_In _ _ Hv))) as Sv.
      pose proof (proj1 (run_vars_world _ _ _ _ _ _ _ _ _ _ _ _ _ _ R (nth_error_In _ _ Hw))) as Sw.
      exact (w_coh _ _ _ (sr_world _ _ _ _ _ _ _ _ _ _ _ _ _ R) _ _ Sv Sw Eid). }
    split; [reflexivity|]. exact (nodup_pos vars Hnd _ _ _ _ Hv Hw (ptr_eq_refl w)).
  - intros v Hv. rewrite enum_keys. apply (run_vars_in _ _ _ _ _ _ _ _ _ _ _ _ _ v R).
    destruct Hv as [Hv|(c & Hc' & Hv)].
    + left. apply (obj_exp_occurs v _ _ _ _ Hnm Hobj). exact Hv.
    + right. exact (parts_keys_all false S2 _ 0 0 ko ps ar jr k' v c Hnm W2 Hc (sr_parts _ _ _ _ _ _ _ _ _ _ _ _ _ R) Hc' Hv).
  - intros v Hv. rewrite enum_keys in Hv. apply (run_vars_in _ _ _ _ _ _ _ _ _ _ _ _ _ v R) in Hv as [Hv|Hv].
    + left. left. apply (obj_exp_occurs v _ _ _ _ Hnm Hobj). exact Hv.
    + destruct (parts_keys false S2 _ 0 0 ko ps ar jr k' v W2 Hc (sr_parts _ _ _ _ _ _ _ _ _ _ _ _ _ R) Hv) as [Hk|[Hk Hn]].
      * left. right. exact Hk.
      * right. split; [lia|exact Hn].
  - intros v w i j Hv Hw Hij. apply enum_in in Hv. apply enum_in in Hw.
    eapply (sorted_nth vars (sort_vars_sorted _) i j); eauto.
Qed.
(** Exactly: the model's variables and one slack per inequality that is a row. *)
Theorem C24_slacks `{HashOrd} (st : mstate X) m sp k' :
  hist any_op st -> In m (st_models st) -> std_problem m (st_k st) = Ok (sp, k') ->
  exists obj cs slots, model_std m (st_k st) = Ok ((obj, cs), k') /\ placed (st_k st) m cs sp slots /\
    forall v, In v (map fst (sp_var2index sp)) <-> model_var m v \/ In v (flat_map slack_of slots).
Proof.
  intros Hh Hm E. destruct (placed_all st m sp k' Hh Hm E) as (obj & cs & slots & Em & Hp & Hk).
  exists obj, cs, slots. split; [exact Em|]. split; [exact Hp|]. intros v.
  destruct (hist_run st m sp k' Hh Hm E) as (S & obj' & S' & eo & ke & ko & ps & ar & jr & uc & lc & Hi & Mi & HW & Em' & R & -> & _).
  rewrite Em in Em'. inversion Em'; subst obj' cs; clear Em'.
  cbn [sp_var2index]. rewrite enum_keys, (run_vars_in _ _ _ _ _ _ _ _ _ _ _ _ _ v R), Hk.
  rewrite (obj_exp_occurs v _ _ _ _ x_nm1 (sr_obj _ _ _ _ _ _ _ _ _ _ _ _ _ R)). unfold model_var. tauto.
Qed.

(** ** C25 Tightest bound *)
Lemma tightest_of `{HashOrd} (st : mstate X) m sp k' obj cs slots :
  hist any_op st -> In m (st_models st) -> std_problem m (st_k st) = Ok (sp, k') ->
  model_std m (st_k st) = Ok ((obj, cs), k') -> placed (st_k st) m cs sp slots ->
  forall v i, In (v, i) (sp_var2index sp) ->
      (exists u, nth_error (m_u (base_of (sp_prob sp))) i = Some (Some u) /\
                 tightest_upper v u (hget Nat.eqb i (sp_ucons sp)) (uppers m slots)) /\
      (exists l, nth_error (m_l (base_of (sp_prob sp))) i = Some (Some l) /\
                 tightest_lower v l (hget Nat.eqb i (sp_lcons sp)) (lowers m slots)).
Proof.
  intros Hh Hm E Em Hp v i Hv.
  destruct (hist_run st m sp k' Hh Hm E) as (S & obj' & S' & eo & ke & ko & ps & ar & jr & uc & lc & Hi & Mi & HW & Em' & R & -> & Hu & _ & _ & Hl & _ & _).
  rewrite Em in Em'. inversion Em'; subst obj' cs; clear Em'. cbn [sp_var2index sp_ucons sp_lcons sp_prob] in *.
  set (vars := problem_vars k' obj (cat ps)) in *. apply enum_in in Hv.
  destruct (base_shape k' (md_init m) obj (cat ps)) as (_ & _ & El & Eu & _).
  rewrite El, Eu, (Hu i v Hv), (Hl i v Hv), <- (pl_uppers _ _ _ _ _ Hp), <- (pl_lowers _ _ _ _ _ Hp).
  unfold p_uvec, p_lvec. fold vars. rewrite !nth_error_map, Hv. cbn [option_map].
  pose proof (run_vars_nodup _ _ _ _ _ _ _ _ _ _ _ _ _ R) as Hnd. fold vars in Hnd.
  assert (Hcoh : forall w, In w (prop_keys (cat ps)) -> ptr_eq v w = true -> w = v).
  { intros w Hw Ep. assert (Hin : In w vars) by (apply (run_vars_in _ _ _ _ _ _ _ _ _ _ _ _ _ w R); auto).
    apply In_nth_error in Hin as [j Hj]. pose proof (nodup_pos vars Hnd _ _ _ _ Hv Hj Ep) as ->. congruence. }
  pose proof (sr_in _ _ _ _ _ _ _ _ _ _ _ _ _ R) as [_ _ _ _ _ Pu Pl]. rewrite Forall_forall in Pu, Pl.
  split.
  - destruct (bfold_best Rle (fun val cur => @nleb X _ val cur)) with (v := v) (B := 100000000%R) (es := cs_u (cat ps)) as (r & Er & HB & Hle & Hc).
    { intros; lra. } { intros; lra. } { intros; lra. }
    { intros a b. cbn. destruct (Rle_dec a b); intuition congruence. } { reflexivity. }
    assert (EI : @INF X _ = Some 100000000%R) by reflexivity. rewrite EI. exists r. split; [exact (f_equal Some Er)|]. split; [exact HB|]. split.
    + intros b c Hin. apply (Hle v b c Hin (ptr_eq_refl v)).
    + destruct (snd _) as [c|].
      * destruct Hc as (l1 & w & l2 & Ees & Ep & Hc).
        assert (w = v) as ->. { apply Hcoh; auto. apply (Pu (w, Some r, c)). rewrite Ees. apply in_or_app; cbn; auto. }
        exists l1, l2. split; [exact Ees|]. intros b c' Hin. specialize (Hc v b c' Hin (ptr_eq_refl v)). lra.
      * destruct Hc as [-> Hc]. split; [reflexivity|]. intros b c Hin. specialize (Hc v b c Hin (ptr_eq_refl v)). lra.
  - destruct (bfold_best (fun a b => b <= a)%R (fun val cur => @nleb X _ cur val)) with (v := v) (B := (- 100000000)%R) (es := cs_l (cat ps)) as (r & Er & HB & Hle & Hc).
    { intros; lra. } { intros; lra. } { intros; lra. }
    { intros a b. cbn. destruct (Rle_dec b a); intuition congruence. } { intros [b|]; reflexivity. }
    assert (EI : nneg (@INF X _) = Some (- 100000000)%R) by reflexivity. rewrite EI. exists r. split; [exact (f_equal Some Er)|]. split; [exact HB|]. split.
    + intros b c Hin. apply (Hle v b c Hin (ptr_eq_refl v)).
    + destruct (snd _) as [c|].
      * destruct Hc as (l1 & w & l2 & Ees & Ep & Hc).
        assert (w = v) as ->. { apply Hcoh; auto. apply (Pl (w, Some r, c)). rewrite Ees. apply in_or_app; cbn; auto. }
        exists l1, l2. split; [exact Ees|]. intros b c' Hin. specialize (Hc v b c' Hin (ptr_eq_refl v)). lra.
      * destruct Hc as [-> Hc]. split; [reflexivity|]. intros b c Hin. specialize (Hc v b c Hin (ptr_eq_refl v)). lra.
Qed.
Theorem C25_tightest `{HashOrd} (st : mstate X) m sp k' :
  hist any_op st -> In m (st_models st) -> std_problem m (st_k st) = Ok (sp, k') ->
  exists obj cs slots, model_std m (st_k st) = Ok ((obj, cs), k') /\ placed (st_k st) m cs sp slots /\
    forall v i, In (v, i) (sp_var2index sp) ->
      (exists u, nth_error (m_u (base_of (sp_prob sp))) i = Some (Some u) /\
                 tightest_upper v u (hget Nat.eqb i (sp_ucons sp)) (uppers m slots)) /\
      (exists l, nth_error (m_l (base_of (sp_prob sp))) i = Some (Some l) /\
                 tightest_lower v l (hget Nat.eqb i (sp_lcons sp)) (lowers m slots)).
Proof.
  intros Hh Hm E. destruct (placed_all st m sp k' Hh Hm E) as (obj & cs & slots & Em & Hp & _).
  exists obj, cs, slots. split; [exact Em|]. split; [exact Hp|]. exact (tightest_of st m sp k' obj cs slots Hh Hm E Em Hp).
Qed.

(** ** C28 Problem class *)
(** An expression is affine when the code recognises it as such (C11, C12 say
    what that means). *)
Definition all_affine {T} `{Num T} (m : model T) : Prop :=
  match md_objective m with Minimize f | Maximize f => p_affine (std_properties f) = true | EmptyObj => True end /\
  forall c, In c (md_constraints m) ->
    p_affine (std_properties (clhs c)) = true /\ p_affine (std_properties (crhs c)) = true.
Definition some_integer {T} (m : model T) : Prop := exists v, model_var m v /\ is_integer v = true.

(** The nodes that count as integer are the variables created with the integer kind. *)
Theorem C28_integer {T} (n : node T) : is_integer n = true <-> exists i name, n = NVar i name VarInteger.
Proof. destruct n as [| i s [] | | | | | ]; cbn; split; try discriminate; try (intros (j & w & E); discriminate E); eauto. Qed.
Theorem C28_class {T} `{Num T} `{HashOrd} (st : mstate T) m sp k' :
  hist any_op st -> In m (st_models st) -> std_problem m (st_k st) = Ok (sp, k') ->
  neqb (@nm1 T _) n0 = false ->
  (class_of (sp_prob sp) = ClLp <-> all_affine m /\ ~ some_integer m) /\
  (class_of (sp_prob sp) = ClMilp <-> all_affine m /\ some_integer m) /\
  (class_of (sp_prob sp) = ClNlp <-> ~ all_affine m /\ ~ some_integer m) /\
  (class_of (sp_prob sp) = ClMinlp <-> ~ all_affine m /\ some_integer m).
Proof.
  intros Hh Hm E Hnm. pose proof (C24_bijection st m sp k' Hh Hm E Hnm) as (_ & _ & HA & HB & _).
  destruct (hist_run st m sp k' Hh Hm E) as (S & obj & S' & eo & ke & ko & ps & ar & jr & uc & lc & Hi & Mi & HW & Em & R & -> & _).
  cbn [sp_prob sp_var2index] in *. rewrite enum_keys in HA, HB.
  assert (Hobj := sr_obj _ _ _ _ _ _ _ _ _ _ _ _ _ R).
  destruct (sr_w2 _ _ _ _ _ _ _ _ _ _ _ _ _ R) as (S2 & I2 & _ & W2 & _).
  assert (Hc : Forall (fun c => S2 (clhs c) /\ S2 (crhs c)) (md_constraints m)).
  { eapply Forall_impl; [|apply mi_cons with (1 := Mi)]. intros c []; auto. }
  assert (Elin : p_linear obj (cat ps) = true <-> all_affine m).
  { unfold p_linear. rewrite andb_true_iff.
    rewrite (parts_nf false S2 _ 0 0 ko ps ar jr k' W2 Hc Hnm (sr_parts _ _ _ _ _ _ _ _ _ _ _ _ _ R)).
    pose proof (std_components_ok _ _ _ _ (sr_comp _ _ _ _ _ _ _ _ _ _ _ _ _ R)) as (_ & _ & -> & _).
    change (p_affine (std_properties eo)) with (affb eo).
    rewrite (obj_exp_affb false _ S _ _ _ _ HW (mi_obj _ _ Mi) Hnm Hobj). unfold all_affine, obj_affine, affb.
    rewrite forallb_forall. split.
    - intros [H1' H2']. split; [destruct (md_objective m); auto|]. intros c Hin. apply andb_true_iff. auto.
    - intros [H1' H2']. split; [destruct (md_objective m); auto|]. intros c Hin. apply andb_true_iff. auto. }
  assert (Eint : no_int k' obj (cat ps) = false <-> some_integer m).
  { unfold no_int. rewrite negb_false_iff, existsb_exists. split.
    - intros (v & Hv & Hint). exists v. split; [|exact Hint]. destruct (HB v Hv) as [Hmv|(_ & nm & Ev)]; [exact Hmv|].
      rewrite Ev in Hint. discriminate.
    - intros (v & Hv & Hint). exists v. split; [apply HA; exact Hv|exact Hint]. }
  assert (Elin' : p_linear obj (cat ps) = false <-> ~ all_affine m) by (rewrite <- Elin; destruct (p_linear obj (cat ps)); intuition congruence).
  assert (Eint' : no_int k' obj (cat ps) = true <-> ~ some_integer m) by (rewrite <- Eint; destruct (no_int k' obj (cat ps)); intuition congruence).
  rewrite <- Elin', <- Eint', <- Elin, <- Eint.
  unfold p_problem. destruct (p_linear obj (cat ps)), (no_int k' obj (cat ps)); cbn [class_of]; intuition congruence.
Qed.
(** The integrality mask. *)
Theorem C28_mask {T} `{Num T} `{HashOrd} (st : mstate T) m sp k' v i :
  hist any_op st -> In m (st_models st) -> std_problem m (st_k st) = Ok (sp, k') ->
  In (v, i) (sp_var2index sp) -> nth_error (m_p (base_of (sp_prob sp))) i = Some (is_integer v).
Proof.
  intros Hh Hm E Hv.
  destruct (hist_run st m sp k' Hh Hm E) as (S & obj & S' & eo & ke & ko & ps & ar & jr & uc & lc & Hi & Mi & HW & Em & R & -> & _).
  cbn [sp_prob sp_var2index] in *. apply enum_in in Hv.
  destruct (base_shape k' (md_init m) obj (cat ps)) as (_ & _ & _ & _ & -> & _). rewrite nth_error_map, Hv. reflexivity.
Qed.
(** Histories whose expressions are all built by the affine operators give
    linear problems. *)
Theorem C28_affine_histories {T} `{Num T} `{HashOrd} (st : mstate T) m sp k' :
  hist affine_op st -> In m (st_models st) -> std_problem m (st_k st) = Ok (sp, k') ->
  neqb (@nm1 T _) n0 = false -> class_of (sp_prob sp) = ClLp \/ class_of (sp_prob sp) = ClMilp.
Proof.
  intros Hh Hm E Hnm. assert (Hh' : hist any_op st) by (eapply hist_weaken; [|exact Hh]; intros; exact I).
  destruct (hist_aff st Hh) as (_ & _ & HM). rewrite Forall_forall in HM. destruct (HM m Hm) as (M1 & M2 & _).
  assert (Ha : all_affine m).
  { split; [destruct (md_objective m); auto|]. rewrite Forall_forall in M2. exact M2. }
  destruct (C28_class st m sp k' Hh' Hm E Hnm) as (H1' & H2' & H3' & H4').
  destruct (class_of (sp_prob sp)); auto.
  - destruct (proj1 H3' eq_refl). contradiction.
  - destruct (proj1 H4' eq_refl). contradiction.
Qed.

(** ** C29 The standard problem is well formed *)
Theorem C29_well_formed {T} `{Num T} `{HashOrd} (st : mstate T) m r k' :
  hist any_op st -> In m (st_models st) -> model_std m (st_k st) = Ok (r, k') ->
  exists sp, std_problem m (st_k st) = Ok (sp, k') /\ well_formed sp.
Proof.
  intros Hh Hm Em. destruct (hist_inv false st Hh) as (S & Hi). destruct r as [obj cs].
  pose proof (hi_models _ _ _ Hi) as G. rewrite Forall_forall in G. destruct (G m Hm) as (Mi & _ & _).
  pose proof (hi_world _ _ _ Hi) as HW.
  destruct (std_problem_ok false _ S m obj cs k' HW Mi Em) as (uc0 & lc0 & E & _).
  eexists. split; [exact E|]. revert E. generalize uc0 lc0. clear uc0 lc0. intros uc0 lc0 E.
  destruct (hist_run st m _ k' Hh Hm E) as (S0 & obj' & S' & eo & ke & ko & ps & ar & jr & uc & lc & _ & _ & _ & Em' & R & Esp & _ & U1 & U2 & _ & L1 & L2).
  rewrite Em in Em'. inversion Em'; subst obj' cs; clear Em'. inversion Esp; subst uc0 lc0; clear Esp.
  set (vars := problem_vars k' obj (cat ps)) in *.
  pose proof (run_vars_nodup _ _ _ _ _ _ _ _ _ _ _ _ _ R) as Hnd. fold vars in Hnd.
  destruct (base_shape k' (md_init m) obj (cat ps)) as (Ea & Eb & El & Eu & Ep & Ex & En). fold vars in En, Ep.
  destruct (base_bufs k' (md_init m) obj (cat ps)) as (Ebf & _).
  destruct (sr_in _ _ _ _ _ _ _ _ _ _ _ _ _ R) as [P1 P2 P3 P4 P5 P6 P7].
  destruct (sr_rows _ _ _ _ _ _ _ _ _ _ _ _ _ R) as [R1 R2 R3 R4 R5 R6 R7].
  assert (Hin : forall v, In v (prop_keys (cat ps)) -> ix vars v < length vars).
  { intros v Hv. apply (ix_lt vars Hnd). apply (run_vars_in _ _ _ _ _ _ _ _ _ _ _ _ _ v R). auto. }
  assert (Hino : forall v, occurs v eo -> ix vars v < length vars).
  { intros v Hv. apply (ix_lt vars Hnd). apply (run_vars_in _ _ _ _ _ _ _ _ _ _ _ _ _ v R). auto. }
  pose proof (sr_comp _ _ _ _ _ _ _ _ _ _ _ _ _ R) as Ecomp.
  assert (Hh2 : forall hs, (forall e, In e hs -> ix vars (fst (fst e)) < length vars /\ ix vars (snd (fst e)) < length vars) ->
     mat_in (length vars) (length vars) (hess_of vars (length vars) hs)).
  { intros hs Hhs. unfold mat_in, hess_of. cbn. rewrite !map_length, repeat_length. repeat split; auto; rewrite Forall_map; apply Forall_forall;
      intros e He; destruct (Hhs e He); lia. }
  assert (Hj0 : forall (n : nat), mat_in (T := T) 0 n (coo_from_nnz 0 n 0)) by (intros; repeat split; constructor).
  assert (Hh0 : forall (n : nat), mat_in (T := T) n n (coo_from_nnz n n 0)) by (intros; repeat split; constructor).
  constructor; cbn [sp_prob sp_var2index sp_acons sp_jcons sp_ucons sp_lcons]; rewrite ?v2i_len, ?Ea, ?Eb, ?El, ?Eu, ?Ep, ?Ebf; fold vars.
  - unfold mat_in, p_amat. cbn. rewrite !map_length. repeat split; auto; rewrite Forall_map.
    + eapply Forall_impl; [|exact R3]. cbn. intros; lia.
    + eapply Forall_impl; [|exact P2]. cbn. intros; apply Hin; auto.
  - destruct (p_linear obj (cat ps)); cbn [lin_bufs nl_bufs b_f b_j length]; [apply Hj0|].
    rewrite repeat_length. unfold mat_in, p_jmat. cbn. rewrite !map_length, repeat_length. repeat split; auto; rewrite Forall_map.
    + eapply Forall_impl; [|exact R7]. cbn. intros; lia.
    + eapply Forall_impl; [|exact P4]. cbn. intros a []; apply Hin; auto.
  - destruct (p_linear obj (cat ps)); cbn [lin_bufs nl_bufs b_hphi]; fold vars; [apply Hh0|].
    apply Hh2. intros e He. destruct (hphi_keys eo ke obj ko Ecomp e He) as [K1 K2].
    split; apply Hino; apply keys_occur; auto.
  - destruct (p_linear obj (cat ps)); cbn [lin_bufs nl_bufs b_h]; fold vars; [constructor|].
    unfold p_hs. rewrite Forall_map. eapply Forall_impl; [|exact P5]. intros hs Hhs. cbv beta. fold vars. apply Hh2.
    rewrite Forall_forall in Hhs. intros e He. destruct (Hhs e He) as (K1 & K2 & _). split; apply Hin; auto.
  - destruct (p_linear obj (cat ps)); cbn [lin_bufs nl_bufs b_h b_f]; [reflexivity|].
    unfold p_hs. rewrite map_length, repeat_length. exact R6.
  - destruct (p_linear obj (cat ps)); cbn [lin_bufs nl_bufs b_gphi]; fold vars; apply repeat_length.
  - unfold p_lvec. apply map_length.
  - unfold p_uvec. apply map_length.
  - apply map_length.
  - eexists. split; [exact Ex|]. unfold p_x0. apply map_length.
  - unfold p_problem. destruct (p_linear obj (cat ps)), (no_int k' obj (cat ps)); cbn; auto; unfold p_cvec; apply map_length.
  - rewrite enum_fst, R2. reflexivity.
  - rewrite enum_fst, R5. unfold p_linear in *. destruct (p_affine (sc_prop obj)); cbn [andb].
    + destruct (Nat.eqb_spec (length (cs_f (cat ps))) 0) as [E0|]; cbn [lin_bufs nl_bufs b_f length]; [rewrite E0; reflexivity|].
      rewrite repeat_length; reflexivity.
    + cbn [nl_bufs b_f]. rewrite repeat_length; reflexivity.
  - split; [apply (nodupk_NoDup Nat.eqb); auto using Nat.eqb_refl|]. rewrite Forall_map. exact U2.
  - split; [apply (nodupk_NoDup Nat.eqb); auto using Nat.eqb_refl|]. rewrite Forall_map. exact L2.
Qed.
(** It panics only where standardising the objective or a constraint does, and
    only for the assertion of C06/C15/C22. *)
Lemma constrs_panic {T} `{Num T} `{HashOrd} S cs acc ar jr k p :
  neqb (@nm1 T _) n0 = false -> world false k S -> Forall (fun c => S (clhs c) /\ S (crhs c)) cs ->
  foldM constr_step cs (acc, ar, jr) k = Panic p -> p = PAssert.
Proof.
  intros Hnm. revert S acc ar jr k. induction cs as [|c cs IH]; intros S acc ar jr k HW HS E; cbn [foldM] in E; [discriminate|].
  inversion HS as [|? ? [Sl Sr] HS']; subst.
  apply bind_panic in E as [E|([[x ar1] jr1] & k1 & E1 & E)].
  - unfold constr_step in E. apply bind_panic in E as [E|([[x ar1] jr1] & k1 & E1 & E)]; [|discriminate].
    exact (constr_std_assert false k S c ar jr p Hnm HW Sl Sr E).
  - unfold constr_step in E1. apply bind_ok in E1 as ([[y ar2] jr2] & k2 & E1 & E2). inversion E2; subst.
    destruct (constr_std_in false k S c ar jr y ar1 jr1 k1 HW Sl Sr E1) as (_ & S1 & I1 & W1 & _).
    eapply (IH S1); [exact W1| |exact E]. eapply Forall_impl; [|exact HS']. intros d []; auto.
Qed.
Theorem C29_panics {T} `{Num T} `{HashOrd} (st : mstate T) m p :
  hist any_op st -> In m (st_models st) -> neqb (@nm1 T _) n0 = false ->
  (std_problem m (st_k st) = Panic p <-> model_std m (st_k st) = Panic p) /\
  (model_std m (st_k st) = Panic p -> p = PAssert).
Proof.
  intros Hh Hm Hnm. destruct (hist_inv false st Hh) as (S & Hi).
  pose proof (hi_models _ _ _ Hi) as G. rewrite Forall_forall in G. destruct (G m Hm) as (Mi & _ & _).
  pose proof (hi_world _ _ _ Hi) as HW. split.
  - destruct (model_std m (st_k st)) as [[r k']|q] eqn:Em.
    + destruct (C29_well_formed st m r k' Hh Hm Em) as (sp & E & _). rewrite E. split; discriminate.
    + unfold std_problem, bind. rewrite Em. split; intros E; inversion E; reflexivity.
  - intros E. unfold model_std in E. apply bind_panic in E as [E|(obj & ko & Eo & E)].
    + apply obj_std_panic in E as [E|(eo & ke & E1 & E)].
      * exfalso. destruct Mi as [Mo _ _]. destruct (md_objective m) as [f|f|]; cbn [obj_exp] in E; try discriminate.
        destruct (neg_n_tot f (world_sums2 false _ S f HW Mo) (st_k st)) as (r & k' & Er). congruence.
      * destruct (obj_exp_grows false _ S _ HW (mi_obj _ _ Mi) _ _ E1) as (_ & S1 & _ & W1 & Se).
        exact (proj1 (std_components_panic false ke S1 eo p W1 Se E)).
    + apply obj_std_ok in Eo as (eo & ke & E1 & Eo).
      destruct (obj_exp_grows false _ S _ HW (mi_obj _ _ Mi) _ _ E1) as (_ & S1 & I1 & W1 & Se).
      destruct (std_components_grows false ke S1 eo W1 Se _ _ Eo) as (_ & S2 & I2 & W2 & _).
      apply bind_panic in E as [E|(r & k2 & _ & E)]; [|discriminate].
      apply (constrs_panic S2 (md_constraints m) cstd_new 0 0 ko p Hnm W2); [|exact E].
      eapply Forall_impl; [|apply mi_cons with (1 := Mi)]. intros c []; auto.
Qed.

(** ** C31 Hessians are lower triangular, without duplicates *)
Theorem C31_lower_triangular {T} `{Num T} `{HashOrd} (st : mstate T) m sp k' h :
  hist any_op st -> In m (st_models st) -> std_problem m (st_k st) = Ok (sp, k') ->
  In h (b_hphi (m_bufs (base_of (sp_prob sp))) :: b_h (m_bufs (base_of (sp_prob sp)))) ->
  Forall (fun e => snd (fst e) <= fst (fst e) < m_nx (base_of (sp_prob sp))) (entries h) /\
  NoDup (map fst (entries h)).
Proof.
  intros Hh Hm E Hin.
  destruct (hist_run st m sp k' Hh Hm E) as (S & obj & S' & eo & ke & ko & ps & ar & jr & uc & lc & Hi & Mi & HW & Em & R & -> & _).
  cbn [sp_prob] in *. set (vars := problem_vars k' obj (cat ps)) in *.
  pose proof (run_vars_nodup _ _ _ _ _ _ _ _ _ _ _ _ _ R) as Hnd. fold vars in Hnd.
  destruct (base_shape k' (md_init m) obj (cat ps)) as (_ & _ & _ & _ & _ & _ & ->). fold vars.
  destruct (base_bufs k' (md_init m) obj (cat ps)) as (Ebf & _). rewrite Ebf in Hin.
  pose proof (sr_comp _ _ _ _ _ _ _ _ _ _ _ _ _ R) as Ecomp.
  destruct (sr_in _ _ _ _ _ _ _ _ _ _ _ _ _ R) as [P1 P2 P3 P4 P5 P6 P7].
  destruct (p_linear obj (cat ps)); cbn [lin_bufs nl_bufs b_hphi b_h] in Hin.
  - destruct Hin as [<-|[]]. split; constructor.
  - destruct Hin as [<-|Hin].
    + apply (hess_of_lower vars Hnd); [exact (hphi_upairs _ _ _ _ Ecomp)|]. apply Forall_forall. intros e He.
      destruct (hphi_keys eo ke obj ko Ecomp e He) as [K1 K2].
      split; apply (run_vars_in _ _ _ _ _ _ _ _ _ _ _ _ _ _ R); left; apply keys_occur; auto.
    + unfold p_hs in Hin. apply in_map_iff in Hin as (hs & <- & Hin).
      pose proof (parts_upairs _ _ _ _ _ _ _ _ (sr_parts _ _ _ _ _ _ _ _ _ _ _ _ _ R)) as HU.
      rewrite Forall_forall in HU, P5. apply (hess_of_lower vars Hnd); [apply HU; exact Hin|].
      eapply Forall_impl; [|apply P5; exact Hin]. cbn. intros e (K1 & K2 & _).
      split; apply (run_vars_in _ _ _ _ _ _ _ _ _ _ _ _ _ _ R); right; auto.
Qed.

(** ** C32 Initial point *)
Theorem C32_x0 {T} `{Num T} `{HashOrd} (st : mstate T) m sp k' :
  hist any_op st -> In m (st_models st) -> std_problem m (st_k st) = Ok (sp, k') ->
  exists x0, m_x0 (base_of (sp_prob sp)) = Some x0 /\ length x0 = length (sp_var2index sp) /\
    forall v i, In (v, i) (sp_var2index sp) ->
      nth_error x0 i = Some (match hget ptr_eq v (md_init m) with Some x => x | None => n0 end).
Proof.
  intros Hh Hm E.
  destruct (hist_run st m sp k' Hh Hm E) as (S & obj & S' & eo & ke & ko & ps & ar & jr & uc & lc & Hi & Mi & HW & Em & R & -> & _).
  cbn [sp_prob sp_var2index] in *.
  destruct (base_shape k' (md_init m) obj (cat ps)) as (_ & _ & _ & _ & _ & Ex & _). eexists. split; [exact Ex|].
  unfold p_x0. rewrite map_length, v2i_len. split; [reflexivity|]. intros v i Hv. apply enum_in in Hv.
  rewrite nth_error_map, Hv. reflexivity.
Qed.

(** Slack variables start at zero. *)
Theorem C32_slack_zero {T} `{Num T} `{HashOrd} (st : mstate T) m sp k' :
  hist any_op st -> In m (st_models st) -> std_problem m (st_k st) = Ok (sp, k') -> neqb (@nm1 T _) n0 = false ->
  exists x0, m_x0 (base_of (sp_prob sp)) = Some x0 /\
    forall v i, In (v, i) (sp_var2index sp) -> ~ model_var m v -> nth_error x0 i = Some n0.
Proof.
  intros Hh Hm E Hnm. destruct (C32_x0 st m sp k' Hh Hm E) as (x0 & Ex & _ & Hx). exists x0. split; [exact Ex|].
  intros v i Hv Hnv. rewrite (Hx v i Hv).
  destruct (C24_bijection st m sp k' Hh Hm E Hnm) as (_ & _ & _ & HB & _).
  destruct (HB v) as [Hmv|([Hk _] & _)]; [apply in_map_iff; exists (v, i); auto|contradiction|].
  destruct (hist_run st m sp k' Hh Hm E) as (S & obj & S' & eo & ke & ko & ps & ar & jr & uc & lc & Hi & Mi & HW & _).
  destruct (hget ptr_eq v (md_init m)) as [y|] eqn:Eg; [|reflexivity]. exfalso.
  apply (hget_some_in ptr_eq) in Eg as (w & Hw & Ew). pose proof (mi_init_in _ _ Mi) as G. rewrite Forall_forall in G. specialize (G _ Hw). cbn in G.
  apply (w_lt _ _ _ HW) in G. apply ptr_eq_nid in Ew. lia.
Qed.

Lemma hget_mk_map {T} (kvs : list (node T * T)) acc v :
  hget ptr_eq v (fold_left hinsert_val kvs acc) =
  match hget ptr_eq v (rev kvs) with Some x => Some x | None => hget ptr_eq v acc end.
Proof.
  revert acc. induction kvs as [|[w x] kvs IH] using rev_ind; intros acc; [reflexivity|].
  rewrite fold_left_app, rev_app_distr. cbn [fold_left rev app hget]. unfold hinsert_val at 1. cbn [fst snd].
  destruct (ptr_eq v w) eqn:Ep.
  - rewrite (pget_eq v w _ Ep). rewrite (hget_hinsert_same ptr_eq); auto using ptr_eq_refl, ptr_eq_sym.
    intros a b c; apply ptr_eq_trans.
  - rewrite (hget_hinsert_other ptr_eq); auto using ptr_eq_sym. intros a b c; apply ptr_eq_trans.
Qed.
(** [set_init_primals] replaces all the initial values by the given map (in
    which a later value for a variable replaces an earlier one). *)
Theorem C32_replaces {T} `{Num T} `{HashOrd} (st st' : mstate T) j values m' v :
  mexec st (CInit j values) = Some st' -> nth_error (st_models st') j = Some m' ->
  exists ns, picks (st_pool st) (map fst values) = Some ns /\
    hget ptr_eq v (md_init m') = hget ptr_eq v (rev (combine ns (map snd values))).
Proof.
  intros E Hm. cbn [mexec] in E. unfold opt_bind in E. destruct (picks (st_pool st) (map fst values)) as [ns|]; [|discriminate].
  exists ns. split; [reflexivity|]. unfold upd_model in E. destruct (nth_error (st_models st) j) as [md|] eqn:Ej; [|discriminate].
  inversion E; subst; clear E. cbn [st_models] in Hm.
  assert (m' = set_init_primals (st_k st) md (mk_map (combine ns (map snd values)))) as ->.
  { revert Ej Hm. generalize (st_models st) as l. generalize j. clear. induction j as [|j IH]; intros [|a l] Ej Hm; cbn in *; try discriminate.
    - congruence.
    - eapply IH; eauto. }
  cbn [set_init_primals md_init].
  assert (Hn : nodupk ptr_eq (map fst (mk_map (combine ns (map snd values))))) by apply mk_map_nodup.
  rewrite (hget_mk_map (ord 9 (st_k st) (mk_map (combine ns (map snd values)))) [] v).
  rewrite <- (pget_perm v (mk_map (combine ns (map snd values))) (rev (ord 9 (st_k st) (mk_map (combine ns (map snd values)))))).
  - unfold mk_map. rewrite hget_mk_map. destruct (hget ptr_eq v (rev (combine ns (map snd values)))); reflexivity.
  - exact Hn.
  - eapply perm_trans; [|apply Permutation_rev]. apply Permutation_sym, ord_perm.
Qed.
(** No other call changes the initial values of a model. *)
Theorem C32_kept {T} `{Num T} `{HashOrd} (st st' : mstate T) c j m :
  mexec st c = Some st' -> nth_error (st_models st) j = Some m ->
  (forall values, c <> CInit j values) ->
  exists m', nth_error (st_models st') j = Some m' /\ md_init m' = md_init m.
Proof.
  intros E Hj Hc.
  assert (Hset : forall j' md', (j' = j -> md_init md' = md_init m) ->
    exists m', nth_error (set_nth (st_models st) j' md') j = Some m' /\ md_init m' = md_init m).
  { intros j' md'. revert Hj. generalize (st_models st) as l. generalize j. clear.
    intros j l Hj Hi. revert j l Hj Hi. induction j' as [|j' IH]; intros [|j] [|a l] Hj Hi; cbn in *; try discriminate; eauto. }
  assert (Hupd : forall j' f, upd_model st j' f = Some st' ->
    (forall md md', f md = Some md' -> md_init md' = md_init md) ->
    exists m', nth_error (st_models st') j = Some m' /\ md_init m' = md_init m).
  { intros j' f Eu Hf. unfold upd_model in Eu. destruct (nth_error (st_models st) j') as [md|] eqn:Ej; [|discriminate].
    destruct (f md) as [md'|] eqn:Ef; [|discriminate]. inversion Eu; subst. cbn [st_models]. apply Hset.
    intros ->. rewrite (Hf _ _ Ef). congruence. }
  assert (Hsame : st_models st' = st_models st -> exists m', nth_error (st_models st') j = Some m' /\ md_init m' = md_init m).
  { intros ->. eauto. }
  destruct c as [o|i kd j' label|i kd v label|v kd i label| |j' i|j' is|j' s i|j'|j' values|j' solver|j' i]; cbn [mexec] in E;
    unfold opt_bind in E.
  - unfold new_node in E. destruct (exec (st_pool st) o (st_k st)) as [[n k']|p]; [|discriminate]. inversion E; subst. apply Hsame; reflexivity.
  - destruct (nth_error (st_pool st) i); [|discriminate]. destruct (nth_error (st_pool st) j'); [|discriminate].
    cbn in E. inversion E; subst. apply Hsame; reflexivity.
  - destruct (nth_error (st_pool st) i); [|discriminate]. cbn in E. inversion E; subst. apply Hsame; reflexivity.
  - destruct (nth_error (st_pool st) i); [|discriminate]. cbn in E. inversion E; subst. apply Hsame; reflexivity.
  - inversion E; subst. cbn [st_models]. exists m. split; [|reflexivity]. rewrite nth_error_app1; auto. apply nth_error_Some. congruence.
  - destruct (nth_error (st_cons st) i); [|discriminate]. eapply Hupd; [exact E|]. intros md md' X; inversion X; reflexivity.
  - destruct (picks (st_cons st) is); [|discriminate]. eapply Hupd; [exact E|]. intros md md' X; inversion X; reflexivity.
  - destruct (nth_error (st_pool st) i); [|discriminate]. eapply Hupd; [exact E|]. intros md md' X; inversion X; reflexivity.
  - eapply Hupd; [exact E|]. intros md md' X; inversion X; reflexivity.
  - destruct (picks (st_pool st) (map fst values)); [|discriminate]. unfold upd_model in E.
    destruct (nth_error (st_models st) j') as [md|] eqn:Ej; [|discriminate]. inversion E; subst. cbn [st_models]. apply Hset.
    intros ->. destruct (Hc values eq_refl).
  - destruct (nth_error (st_models st) j') as [md|] eqn:Ej; [|discriminate].
    destruct (solve solver md (st_k st)) as [[md' o] k'] eqn:Es. inversion E; subst. cbn [st_models]. apply Hset.
    intros ->. destruct (solve_inputs solver md _ md' o k' Es) as (_ & _ & ->). congruence.
  - destruct (nth_error (st_models st) j') as [md|] eqn:Ej; [|discriminate].
    destruct (nth_error (md_primals md) i); [|discriminate]. inversion E; subst. apply Hsame; reflexivity.
Qed.

(** ** The hypotheses are met *)
(** In exact arithmetic, [em] of ModelExample.v (see C23_example) has a standard
    problem; its class is NLP. *)
Example C24_C32_example : exists sp k', @hist X _ any_op est /\ In em (st_models est) /\
  @std_problem X _ ord_id em (st_k est) = Ok (sp, k') /\ class_of (sp_prob sp) = ClNlp /\ well_formed sp.
Proof.
  destruct C23_example as (sp & k' & Hh & Hm & E). exists sp, k'. repeat (split; [assumption|]). split.
  - apply (@C28_class X _ ord_id est em sp k' Hh Hm E x_nm1). split.
    + intros [Ha _]. discriminate.
    + assert (HK : forall v (n : nodeX), occurs v n -> (n = cx \/ n = cy \/ n = cm \/ n = cs_ \/ exists i w, n = NConst i w) -> is_integer v = false).
      { assert (HB : forall v (n : nodeX), occurs v n -> (n = cx \/ n = cy \/ exists i w, n = NConst i w) -> is_integer v = false).
        { intros v n Ho [->|[->|(i & w & ->)]]; apply occurs_inv in Ho as [[-> Hv]|(c & [] & _)]; try reflexivity; discriminate. }
        intros v n Ho [->|[->|[->|[->|(i & w & ->)]]]]; try (apply (HB v _ Ho); solve [auto|right; right; eauto]);
          (apply occurs_inv in Ho as [[_ Hv]|(c & [<-|[<-|[]]] & Ho)]; [discriminate|apply (HB v _ Ho); auto|apply (HB v _ Ho); auto]). }
      intros (v & [Hv|(c & Hc & Hv)] & Hi).
      * rewrite (HK v cm Hv) in Hi; [discriminate|auto].
      * enough (is_integer v = false) by congruence.
        destruct Hc as [<-|[<-|[<-|[]]]]; destruct Hv as [Hv|Hv]; apply (HK v _ Hv); cbn; eauto 10.
  - destruct (@hist_run X _ ord_id est em sp k' Hh Hm E) as (S & obj & S' & eo & ke & ko & ps & ar & jr & uc & lc & _ & _ & _ & Em & _).
    destruct (@C29_well_formed X _ ord_id est em _ k' Hh Hm Em) as (sp' & E' & Hw). congruence.
Qed.
(** In floating point: maximise 2x - 3n (n integer) subject to x <= 4, x <= 3,
    x <= 5 and x + n >= 1, with initial values 1 for x and 2 for n. *)
Section FExample.
  Let N0 : Num F := NumF0.
  Local Existing Instance N0.
  Local Existing Instance ord_id.
  Definition fprog : list (call F) :=
    [ CExpr (OVar "x" VarContinuous); CExpr (OVar "n" VarInteger); CExpr (OMulSN (flit 2) 0); CExpr (OMulNS 1 (flit 3));
      CExpr (OSubNN 2 3); CExpr (OAddNN 0 1);
      CCmpNS 0 LessEqual (flit 4) "c0"; CCmpNS 0 LessEqual (flit 3) "c1"; CCmpNS 0 LessEqual (flit 5) "c2";
      CCmpNS 5 GreaterEqual (flit 1) "c3";
      CNewModel; CSetObj 0 Maximise 4; CAddConstrs 0 [0; 1; 2; 3]; CInit 0 [(0, flit 1); (1, flit 2)] ]%string.
  Definition fobs (sp : std_prob F) :=
    (map (fun vi => (name (fst vi), snd vi)) (sp_var2index sp), m_x0 (base_of (sp_prob sp)),
     m_p (base_of (sp_prob sp)), m_u (base_of (sp_prob sp)),
     map (fun ic => (fst ic, clabel (snd ic))) (sp_ucons sp), map (fun ic => (fst ic, clabel (snd ic))) (sp_lcons sp),
     class_of (sp_prob sp)).
  Example fexample : exists st m sp k', mrun fprog mstart = Some st /\ hist any_op st /\ In m (st_models st) /\
    std_problem m (st_k st) = Ok (sp, k') /\
    fobs sp = ([("_s_a0_", 0); ("n", 1); ("x", 2)]%string, Some [flit 0; flit 2; flit 1], [false; true; false],
               [flit 100000000; flit 100000000; flit 3], [(2, "c1")], [(0, "c3")], ClMilp)%string.
  Proof.
    destruct (mrun fprog mstart) as [st|] eqn:E; [|vm_compute in E; discriminate].
    set (m := nth 0 (st_models st) model_new).
    pose proof (mrun_hist _ _ _ (hist_start _) E) as Hh.
    assert (G : match std_problem m (st_k st) with
                | Ok (sp, _) => fobs sp = ([("_s_a0_", 0); ("n", 1); ("x", 2)]%string, Some [flit 0; flit 2; flit 1], [false; true; false],
                    [flit 100000000; flit 100000000; flit 3], [(2, "c1")], [(0, "c3")], ClMilp)%string
                | Panic _ => False end).
    { subst m. clear Hh. vm_compute in E. injection E as <-. vm_compute. reflexivity. }
    destruct (std_problem m (st_k st)) as [[sp k']|p] eqn:Es; [|destruct G].
    exists st, m, sp, k'. split; [reflexivity|]. split; [exact Hh|]. split; [|split; [exact Es|exact G]].
    clear - E. subst m. vm_compute in E. injection E as <-. cbn; auto.
  Qed.
End FExample.
