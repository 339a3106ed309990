(** Property C61: integer linear models are built and solved exactly in binary64. *)
From Verif Require Import Base Num Node NodeInd NodeDiff NodeStd Constraint Matrix Problem ModelStd Model
     ExprSpec EvalProofs DiffProofs Api ApiProofs ModelApi HistProofs HistAff ConstrSpec ModelSpec MatSpec PointProofs EvalRun
     StdFacts Properties_Std Properties_Feas EvalSpec Properties_Eval Properties_HashSol SolveProofs Properties_Solve KktSpec KktProofs Properties_Kkt
     ProblemProofs FmtProofs FloatProofs FloatOps ExactSpec ExactSim ExactF ExactHist Properties_Exact.
From Coq Require Import Reals Lra Floats.SpecFloat NArith.

#[local] Notation rl := (rlim exact_limit).
#[local] Notation top := (N.le_refl exact_limit).
#[local] Notation RNd := (@RNode F X exact_limit vw1 rl).
#[local] Notation RMd := (@RModel F X exact_limit vw1 rl xrel).
Lemma lim_big : (100000000 <= exact_limit)%N.
Proof. vm_compute. discriminate. Qed.
(** *** From the relations of the simulation to the specification *)
Lemma rel'_int x y : rel' rl x y -> y = xval x /\ exists z, integer x z.
Proof. intros (w & Hr). split; [exact (rl_xval exact_limit _ _ _ Hr)|]. destruct Hr as (_ & z & _ & _ & Hz). exists z. exact Hz. Qed.
Lemma rels_int l l' : Forall2 (rel' rl) l l' -> l' = map xval l /\ integral l.
Proof.
  intros Hl. split.
  - eapply Forall2_exact; [|exact Hl]. intros a b Hab. apply (rel'_int _ _ Hab).
  - induction Hl as [|a b l l' Hab Hl IH]; constructor; [exact (proj2 (rel'_int _ _ Hab))|exact IH].
Qed.
Lemma xrels l l' : Forall2 xrel l l' -> l' = map xval l.
Proof. apply Forall2_exact. auto. Qed.
Lemma rprob_same p p' : RProb rl xrel p p' -> same_data p p'.
Proof.
  assert (G : forall q q', RBase rl xrel q q' -> (integral (coo_data (m_a q)) /\ integral (m_b q) /\ integral (m_l q) /\ integral (m_u q)) /\ m_nx q' = m_nx q /\
    (coo_rows (m_a q') = coo_rows (m_a q) /\ coo_cols (m_a q') = coo_cols (m_a q) /\ coo_ri (m_a q') = coo_ri (m_a q) /\ coo_ci (m_a q') = coo_ci (m_a q)) /\
    coo_data (m_a q') = map xval (coo_data (m_a q)) /\ m_b q' = map xval (m_b q) /\ m_l q' = map xval (m_l q) /\ m_u q' = map xval (m_u q) /\ m_p q' = m_p q /\
    m_x0 q' = option_map (map xval) (m_x0 q)).
  { intros q q' [B1 (B2 & B3 & B4 & B5 & B6) B7 B8 B9 B10]. apply rels_int in B6 as [A1 A2], B7 as [A3 A4], B8 as [A5 A6], B9 as [A7 A8].
    split; [auto|]. split; [unfold m_nx; auto|]. split; [auto|]. do 5 (split; [auto|]).
    destruct (m_x0 q) as [x|], (m_x0 q') as [x'|]; cbn; try contradiction; [|reflexivity]. apply xrels in B1 as ->. reflexivity. }
  intros Hp. destruct p as [q|q|q|q], p' as [q'|q'|q'|q']; cbn [RProb] in Hp; try contradiction.
  - destruct Hp as [Hc Hb]. apply rels_int in Hc as [C1 C2]. destruct (G _ _ Hb) as ((G1 & G2 & G3 & G4) & G5 & G6 & G7 & G8 & G9 & G10 & G11 & G12). constructor; cbn [class_of lin_c base_of]; auto.
  - destruct Hp as [Hc [Hb _]]. apply rels_int in Hc as [C1 C2]. destruct (G _ _ Hb) as ((G1 & G2 & G3 & G4) & G5 & G6 & G7 & G8 & G9 & G10 & G11 & G12). constructor; cbn [class_of lin_c base_of]; auto.
Qed.
Lemma rsp_same sp sp' : @RSP F X exact_limit vw1 rl xrel sp sp' -> same_problem sp sp'.
Proof.
  intros [R1 R2 R3 [R4 R4'] R5 R6]. split; [apply rprob_same, R1|]. assert (Hic : forall a b, @ic_rel F X exact_limit vw1 rl a b -> b = (fst a, exact_con (snd a))).
  { intros [i c] [i' c'] [H1 H2]. cbn in *. apply rcon_exact in H2 as ->. subst. reflexivity. }
  split; [eapply Forall2_exact; [|exact R2]; intros [v i] [v' i'] [H1 H2]; cbn in *; apply same_var_exact in H1 as ->; subst; reflexivity|].
  split; [eapply Forall2_exact; eauto|]. split; [exact R4|]. split; [exact R4'|]. split; eapply Forall2_exact; eauto.
Qed.

(** *** Linear data *)
Lemma int_xval v z : integer v z -> xval v = Some (fval v).
Proof. intros (_ & Hf & _). unfold xval. rewrite Hf. reflexivity. Qed.
Lemma integral_xval l : integral l -> map xval l = pt (map fval l).
Proof. intros Hl. unfold pt. rewrite map_map. induction Hl as [|v l [z Hz] Hl IH]; cbn; [reflexivity|]. rewrite (int_xval _ _ Hz), IH. reflexivity. Qed.
Lemma dot_exact c x : integral c -> xsum (map (fun cx => x2 Rmult (fst cx) (snd cx)) (combine (map xval c) (pt x))) = Some (dotR c x).
Proof.
  intros Hc. revert x. induction Hc as [|v c [z Hz] Hc IH]; intros x; [reflexivity|]. destruct x as [|r x]; [reflexivity|].
  cbn [map pt combine]. rewrite xsum_cons. change (map Some x) with (pt x). rewrite IH, (int_xval _ _ Hz). reflexivity.
Qed.
Lemma pt_nth0 x j : nth j (pt x) (Some 0%R) = Some (nth j x 0%R).
Proof. unfold pt. apply (map_nth Some). Qed.
Lemma row_exact (a : coo F) (a' : coo X) r x : integral (coo_data a) -> coo_ri a' = coo_ri a -> coo_ci a' = coo_ci a -> coo_data a' = map xval (coo_data a) ->
  row_dot (row_of r (entries a')) (pt x) = Some (rowR a r x).
Proof.
  intros Hi E1 E2 E3. rewrite row_dot_xsum. unfold rowR, row_of, entries. rewrite E1, E2, E3. clear E1 E2 E3. generalize (combine (coo_ri a) (coo_ci a)) as ij.
  induction Hi as [|v d [z Hz] Hd IH]; intros [|[i j] ij]; try reflexivity. cbn [map combine filter fst snd]. destruct (i =? r).
  - cbn [map fst snd fold_right]. rewrite xsum_cons, IH, pt_nth0, (int_xval _ _ Hz). cbn. f_equal. ring.
  - apply IH.
Qed.

Section ExactModel.
  Variables fsin fcos : F -> F.
  Notation NF := (NumF fsin fcos).

  (** ** C61 Integer linear models, built in binary64, are the exact ones

      What a program of calls builds and solves in binary64 is, read exactly, what the same
      calls build and solve in exact arithmetic. *)
  Theorem C61_history st ws : @int_hist NF st ws -> @hist X _ affine_op (exact_state st).
  Proof. intros Hh. destruct (hist_exact exact_limit top lim_big fsin fcos st ws Hh) as (st' & Hi & Hx). rewrite <- (HI_exact exact_limit _ _ _ Hi). exact Hx. Qed.

  Lemma exact_in m st : In m (st_models st) -> In (exact_model m) (st_models (exact_state st)).
  Proof. intros Hm. cbn. apply in_map. exact Hm. Qed.
  Lemma exact_rel st ws m : @int_hist NF st ws -> In m (st_models st) -> RMd m (exact_model m).
  Proof.
    intros Hh Hm. destruct (hist_exact exact_limit top lim_big fsin fcos st ws Hh) as (st' & [_ _ _ H4] & _). apply In_nth_error in Hm as [i Ei].
    destruct (Forall2_nth_l _ _ _ _ _ H4 Ei) as (m' & _ & Hr). pose proof (rmodel_exact exact_limit _ _ Hr) as ->. exact Hr.
  Qed.

  (** The standard problem is the exact one; it exists in binary64 when it exists in exact
      arithmetic, and the panics are the same. *)
  Theorem C61_problem (HO : HashOrd) st ws m : @int_hist NF st ws -> neutral HO -> In m (st_models st) ->
    match @std_problem F NF HO m (st_k st), @std_problem X _ HO (exact_model m) (st_k st) with
    | Ok (sp, k), Ok (sp', k') => k = k' /\ same_problem sp sp'
    | Panic p, Panic p' => p = p'
    | _, _ => False
    end.
  Proof.
    intros Hh Hn Hm. pose proof (sim_sp exact_limit top lim_big fsin fcos HO m _ Hn (exact_rel st ws m Hh Hm) (hist_mods exact_limit fsin fcos st ws m Hh Hm) (st_k st)) as G.
    destruct (@std_problem F NF HO m (st_k st)) as [[sp k]|p], (@std_problem X _ HO (exact_model m) (st_k st)) as [[sp' k']|p']; cbn in G; auto.
    destruct G as [G1 G2]. split; [exact G1|]. apply rsp_same, G2.
  Qed.

  (** Solving in binary64 leaves the model that solving in exact arithmetic leaves, if the
      solver answers the same. *)
  Theorem C61_solve (HO : HashOrd) st ws m f f' : @int_hist NF st ws -> neutral HO -> In m (st_models st) ->
    (forall sp sp' k, @std_problem F NF HO m (st_k st) = Ok (sp, k) -> @std_problem X _ HO (exact_model m) (st_k st) = Ok (sp', k) ->
       f' (sp_prob sp') = exact_answer (f (sp_prob sp))) ->
    @solve X _ HO f' (exact_model m) (st_k st) =
      let '(m', o, k') := @solve F NF HO f m (st_k st) in (exact_model m', o, k').
  Proof.
    intros Hh Hn Hm Hf. pose proof (sim_sv exact_limit top lim_big fsin fcos HO f f' m _ (st_k st) Hn (exact_rel st ws m Hh Hm) (hist_mods exact_limit fsin fcos st ws m Hh Hm)) as G. cbv zeta in G.
    destruct G as (G1 & G2 & G3).
    { intros sp sp' k1 Es Es' _. rewrite std_problem_reset in Es. rewrite std_problem_reset in Es'. rewrite (Hf sp sp' k1 Es Es'). apply exact_answer_rel. }
    destruct (@solve F NF HO f m (st_k st)) as [[m1 o1] k1], (@solve X _ HO f' (exact_model m) (st_k st)) as [[m2 o2] k2]. cbn [fst snd] in G1, G2, G3.
    apply rmodel_exact in G1. subst. reflexivity.
  Qed.


  (** *** Every constraint of an integer model has values *)
  Notation ev K := (evaluate (envX K (fun _ => 0%Z))).
  Lemma xsum_all (l : list X) : Forall (fun x => exists z, x = Some z) l -> exists z, xsum l = Some z.
  Proof. induction 1 as [|x l [z ->] Hl [y IH]]; [exists 0%R; reflexivity|]. rewrite xsum_cons, IH. cbn. eauto. Qed.
  Lemma rnode_value w n n' : RNd w n n' -> exists K, forall K', (K <= K')%nat -> exists z, ev K' n' = Some z.
  Proof.
    revert w n n'.
    apply (@RNode_both_ind F X exact_limit vw1 rl (fun w n n' => exists K, forall K', (K <= K')%nat -> exists z, ev K' n' = Some z)
             (fun w l l' => exists K, forall K', (K <= K')%nat -> Forall (fun n' => exists z, ev K' n' = Some z) l')).
    - intros w i v v' Hw (_ & z & _ & -> & _). exists 0. intros K' _. exists (IZR z). reflexivity.
    - intros w i s kd Hw Hl. exists (Datatypes.S i). intros K' HK. exists (IZR 0). cbn [evaluate]. rewrite (envX_get K' _ i s kd) by lia. reflexivity.
    - intros w i l l' Hw Hl [K IH]. exists K. intros K' HK. rewrite evaluate_add. apply xsum_all. apply Forall_map. exact (IH K' HK).
    - intros w w1 w2 i a a' b b' Ha [K1 IHa] Hb [K2 IHb] Hw Hl. exists (Nat.max K1 K2). intros K' HK.
      destruct (IHa K' ltac:(lia)) as [x Ex], (IHb K' ltac:(lia)) as [y Ey]. cbn [evaluate]. rewrite Ex, Ey. cbn. eauto.
    - intros w Hw. exists 0. intros K' _. constructor.
    - intros w w1 w2 a a' l l' Ha [K1 IHa] Hl [K2 IHl] Hw Hlm. exists (Nat.max K1 K2). intros K' HK. constructor; [apply IHa|apply IHl]; lia.
  Qed.
  Lemma exact_meaningful st ws m : @int_hist NF st ws -> In m (st_models st) -> Forall meaningful (md_constraints (exact_model m)).
  Proof.
    intros Hh Hm. destruct (exact_rel st ws m Hh Hm) as (_ & H2 & _). revert H2. generalize (md_constraints m) (md_constraints (exact_model m)).
    induction 1 as [|c c' l l' (_ & _ & _ & w1 & w2 & H1 & H2 & _) Hl IH]; constructor; [|exact IH].
    destruct (rnode_value _ _ _ H1) as [K1 G1], (rnode_value _ _ _ H2) as [K2 G2]. destruct (G1 (Nat.max K1 K2) ltac:(lia)) as [x Ex], (G2 (Nat.max K1 K2) ltac:(lia)) as [y Ey].
    exists (envX (Nat.max K1 K2) (fun _ => 0%Z)), x, y. auto.
  Qed.

  (** *** Feasible and optimal points of the data *)
  Lemma any_of_aff (st : mstate X) : hist affine_op st -> hist any_op st.
  Proof. apply hist_weaken. intros; exact I. Qed.
  Lemma nth_map_some {A B} (f : A -> B) l i b : nth_error (map f l) i = Some b -> exists a, nth_error l i = Some a /\ b = f a.
  Proof. rewrite nth_error_map. destruct (nth_error l i); cbn; [|discriminate]. intros E; injection E as <-. eauto. Qed.
  Lemma integral_nth l i v : integral l -> nth_error l i = Some v -> xval v = Some (fval v).
  Proof. intros Hl Ev. apply nth_error_In in Ev. unfold integral in Hl. rewrite Forall_forall in Hl. destruct (Hl v Ev) as [z Hz]. exact (int_xval _ _ Hz). Qed.
  Section Points.
    Context (HO : HashOrd) (st : mstate X) (m : model X) (sp' : std_prob X) (k' : nat) (p : problem F).
    Hypothesis Hh : hist any_op st.
    Hypothesis Hm : In m (st_models st).
    Hypothesis E : std_problem m (st_k st) = Ok (sp', k').
    Hypothesis Hs : same_data p (sp_prob sp').
    Lemma lin' : class_of (sp_prob sp') = ClLp \/ class_of (sp_prob sp') = ClMilp.
    Proof. rewrite (sd_class _ _ Hs). exact (sd_lin _ _ Hs). Qed.
    Lemma feasible_data x : feasible (sp_prob sp') x <-> data_feasible p x.
    Proof.
      destruct (sd_ints _ _ Hs) as (I1 & I2 & I3 & I4 & I5). destruct (sd_shape _ _ Hs) as (S1 & S2 & S3 & S4).
      assert (Hrow : forall r, ax_row (sp_prob sp') r (pt x) = Some (rowR (m_a (base_of p)) r x)) by (intros r; apply row_exact; auto; exact (sd_a _ _ Hs)).
      split.
      - intros (F1 & F2 & _ & F4). split; [rewrite F1; exact (sd_nx _ _ Hs)|]. split.
        + intros r b Eb. destruct (F2 r (xval b)) as (y & Ey & Eb').
          { rewrite (sd_b _ _ Hs), nth_error_map, Eb. reflexivity. }
          rewrite (integral_nth _ _ _ I3 Eb) in Eb'. rewrite Hrow in Ey. congruence.
        + intros i r Er. destruct (F4 i r Er) as ((l & u & El & Eu & (a1 & a2 & A1 & A2 & A3) & (b1 & b2 & B1 & B2 & B3)) & F5). split.
          * rewrite (sd_l _ _ Hs) in El. rewrite (sd_u _ _ Hs) in Eu. apply nth_map_some in El as (l0 & El & ->). apply nth_map_some in Eu as (u0 & Eu & ->).
            exists l0, u0. split; [exact El|]. split; [exact Eu|]. rewrite (integral_nth _ _ _ I4 El) in A1. rewrite (integral_nth _ _ _ I5 Eu) in B2.
            injection A1 as A1. injection A2 as A2. injection B1 as B1. injection B2 as B2. subst. split; assumption.
          * rewrite (sd_p _ _ Hs) in F5. exact F5.
      - intros (F1 & F2 & F4). assert (Hx : length x = m_nx (base_of (sp_prob sp'))) by (rewrite F1; symmetry; exact (sd_nx _ _ Hs)). split; [exact Hx|]. split; [|split].
        + intros r b Eb. rewrite (sd_b _ _ Hs) in Eb. apply nth_map_some in Eb as (b0 & Eb & ->). exists (rowR (m_a (base_of p)) r x). split; [apply Hrow|].
          rewrite (integral_nth _ _ _ I3 Eb), (F2 r b0 Eb). reflexivity.
        + destruct (C30_linear st m sp' k' _ x Hh Hm E lin' (ev_start _) Hx) as (q & Eq & Ef & _). exists q. split; [exact Eq|]. rewrite Ef. constructor.
        + intros i r Er. destruct (F4 i r Er) as ((l & u & El & Eu & H1 & H2) & F5). split.
          * exists (xval l), (xval u). rewrite (sd_l _ _ Hs), (sd_u _ _ Hs), !nth_error_map, El, Eu. split; [reflexivity|]. split; [reflexivity|].
            rewrite (integral_nth _ _ _ I4 El), (integral_nth _ _ _ I5 Eu). split; [exists (fval l), r|exists r, (fval u)]; auto.
          * rewrite (sd_p _ _ Hs). exact F5.
    Qed.
    Lemma value_data x : length x = m_nx (base_of (sp_prob sp')) -> prob_value (sp_prob sp') x (Some (dotR (lin_c p) x)).
    Proof.
      intros Hx. destruct (C27_objective st m sp' k' Hh Hm E) as (shift & _ & _ & HC). destruct (HC x Hx) as (phi & Hv & _ & Hphi).
      assert (phi = Some (dotR (lin_c p) x)) as <-; [|exact Hv].
      destruct (sd_ints _ _ Hs) as (I1 & _). pose proof (sd_c _ _ Hs) as Ec. pose proof lin' as Hl.
      destruct (sp_prob sp') as [q|q|q|q]; cbn in Hl; destruct Hl as [Hl|Hl]; try discriminate Hl; cbn [lin_c] in Ec; rewrite Hphi, Ec; apply dot_exact, I1.
    Qed.
    Lemma optimal_data x : data_optimal p x -> optimal (sp_prob sp') x.
    Proof.
      intros [Hf Ho]. apply feasible_data in Hf. split; [exact Hf|]. exists (dotR (lin_c p) x). split; [apply value_data; apply Hf|].
      intros y b Hy (q & Eq & Eb). destruct (value_data y (proj1 Hy)) as (q' & Eq' & Eb'). rewrite Eq in Eq'. injection Eq' as <-. rewrite Eb in Eb'. injection Eb' as ->.
      apply Ho. apply feasible_data. exact Hy.
    Qed.
  End Points.

  (** Optimal for the data, optimal for the model: if the solver returns a point that is
      optimal for the numbers it is given, then the values the model reports satisfy the
      model as written, exactly, and no other point within the default bounds is better. *)
  Theorem C61_optimal (HO : HashOrd) st ws m solver m' k' :
    @int_hist NF st ws -> neutral HO -> In m (st_models st) ->
    @solve F NF HO solver m (st_k st) = (m', Returned (inl tt), k') ->
    (forall sp stat s, @std_problem F NF HO m (st_k st) = Ok (sp, k') -> solver (sp_prob sp) = Ok (inl (stat, s)) ->
       Forall (fun v => finiteb v = true) (s_x s) /\ data_optimal (sp_prob sp) (map fval (s_x s))) ->
    model_feasible (exact_model m) (exact_vals (md_primals m')) /\
    forall vs b, model_feasible (exact_model m) vs -> in_box 100000000 (exact_model m) vs -> obj_value (exact_model m) vs = Some b ->
      exists a, obj_value (exact_model m) (exact_vals (md_primals m')) = Some a /\ (a <= b)%R.
  Proof.
    intros Hh Hn Hm Es Hsol. set (ans := match @std_problem F NF HO m (st_k st) with Ok (sp, _) => exact_answer (solver (sp_prob sp)) | Panic p => Panic p end).
    pose proof (C61_solve HO st ws m solver (fun _ => ans) Hh Hn Hm) as HS. rewrite Es in HS.
    assert (HX : @solve X _ HO (fun _ => ans) (exact_model m) (st_k (exact_state st)) = (exact_model m', Returned (inl tt), k')).
    { apply HS. intros sp sp' k E1 E2. unfold ans. rewrite E1. reflexivity. }
    clear HS. pose proof (any_of_aff _ (C61_history st ws Hh)) as HhX.
    refine (@C36_solve HO (exact_state st) (fun _ => ans) (exact_model m) (exact_model m') k' HhX (exact_in _ _ Hm) HX (exact_meaningful st ws m Hh Hm) _).
    intros sp' stat s' E' Ea. change (st_k (exact_state st)) with (st_k st) in E'. pose proof (C61_problem HO st ws m Hh Hn Hm) as G. rewrite E' in G.
    unfold ans in Ea. destruct (@std_problem F NF HO m (st_k st)) as [[sp k]|] eqn:Esp; [|contradiction]. destruct G as [-> [Hsd _]].
    destruct (solver (sp_prob sp)) as [[[stat0 s]|e]|q] eqn:Eso; cbn [exact_answer] in Ea; try discriminate. injection Ea as <- <-.
    destruct (Hsol sp stat0 s eq_refl Eso) as [Hfin Hopt]. exists (map fval (s_x s)). split.
    - cbn [exact_sol s_x]. unfold pt. rewrite map_map. clear -Hfin. induction Hfin as [|v l Hv Hl IH]; cbn; [reflexivity|]. unfold xval at 1. rewrite Hv, IH. reflexivity.
    - exact (optimal_data HO (exact_state st) (exact_model m) sp' k' (sp_prob sp) HhX (exact_in _ _ Hm) E' Hsd _ Hopt).
  Qed.

  Lemma sub_exact (v n : node F) : sub v n -> sub (exact_node v) (exact_node n).
  Proof.
    induction 1 as [n|s c n Hin Hs IH]; [constructor|]. eapply sub_arg; [|exact IH]. destruct n; cbn [arguments exact_node] in *; auto.
    - apply in_map. exact Hin.
    - destruct Hin as [<-|[]]. left. reflexivity.
    - destruct Hin as [<-|[<-|[]]]; cbn; auto.
    - destruct Hin as [<-|[<-|[]]]; cbn; auto.
    - destruct Hin as [<-|[]]. left. reflexivity.
  Qed.
  Lemma sub_exact_inv (v : node X) (n : node F) : sub v (exact_node n) -> exists u, v = exact_node u /\ sub u n.
  Proof.
    remember (exact_node n) as n' eqn:En. intros Hs. revert n En. induction Hs as [n'|s c n' Hin Hs IH]; intros n ->.
    - exists n. split; [reflexivity|constructor].
    - assert (Hc : exists c0, In c0 (arguments n) /\ c = exact_node c0).
      { destruct n; cbn [arguments exact_node] in *; try contradiction.
        - apply in_map_iff in Hin as (c0 & <- & Hc). eauto.
        - destruct Hin as [<-|[]]; (eexists; split; [|reflexivity]; cbn; auto).
        - destruct Hin as [<-|[<-|[]]]; (eexists; split; [|reflexivity]; cbn; auto).
        - destruct Hin as [<-|[<-|[]]]; (eexists; split; [|reflexivity]; cbn; auto).
        - destruct Hin as [<-|[]]; (eexists; split; [|reflexivity]; cbn; auto). }
      destruct Hc as (c0 & Hin0 & ->). destruct (IH c0 eq_refl) as (u & -> & Hu). exists u. split; [reflexivity|]. eapply sub_arg; eauto.
  Qed.
  Lemma exact_integer m : some_integer (exact_model m) -> some_integer m.
  Proof.
    assert (G : forall v n, occurs v (exact_node n) -> exists u, v = exact_node u /\ occurs u n).
    { intros v n [Hv Hs]. apply sub_exact_inv in Hs as (u & -> & Hu). exists u. split; [reflexivity|]. split; [|exact Hu]. destruct u; auto. }
    assert (Gi : forall u, is_integer (exact_node u) = true -> is_integer u = true) by (intros u; destruct u; auto).
    intros (v & [Hv|(c & Hc & Hv)] & Hi).
    - cbn [exact_model md_objective] in Hv. destruct (md_objective m) as [f|f|] eqn:Eo; cbn [exact_obj] in Hv; try contradiction;
        (apply G in Hv as (u & -> & Hu); exists u; split; [left; rewrite Eo; exact Hu|auto]).
    - cbn [exact_model md_constraints] in Hc. apply in_map_iff in Hc as (c0 & <- & Hc0). cbn [exact_con clhs crhs] in Hv.
      destruct Hv as [Hv|Hv]; apply G in Hv as (u & -> & Hu); exists u; (split; [right; exists c0; auto|auto]).
  Qed.

  (** With continuous variables only, a solution strictly inside the default bounds is optimal
      among all points that satisfy the model. *)
  Theorem C61_global (HO : HashOrd) st ws m solver m' k' :
    @int_hist NF st ws -> neutral HO -> In m (st_models st) -> ~ some_integer m ->
    @solve F NF HO solver m (st_k st) = (m', Returned (inl tt), k') ->
    (forall sp stat s, @std_problem F NF HO m (st_k st) = Ok (sp, k') -> solver (sp_prob sp) = Ok (inl (stat, s)) ->
       Forall (fun v => finiteb v = true) (s_x s) /\ data_optimal (sp_prob sp) (map fval (s_x s))) ->
    (forall v x, In (v, x) (md_primals m') -> (Rabs (fval x) < 100000000)%R) ->
    model_feasible (exact_model m) (exact_vals (md_primals m')) /\
    forall vs b, model_feasible (exact_model m) vs -> obj_value (exact_model m) vs = Some b ->
      exists a, obj_value (exact_model m) (exact_vals (md_primals m')) = Some a /\ (a <= b)%R.
  Proof.
    intros Hh Hn Hm Hni Es Hsol Hbox. set (ans := match @std_problem F NF HO m (st_k st) with Ok (sp, _) => exact_answer (solver (sp_prob sp)) | Panic p => Panic p end).
    pose proof (C61_solve HO st ws m solver (fun _ => ans) Hh Hn Hm) as HS. rewrite Es in HS.
    assert (HX : @solve X _ HO (fun _ => ans) (exact_model m) (st_k (exact_state st)) = (exact_model m', Returned (inl tt), k')).
    { apply HS. intros sp sp' k E1 E2. unfold ans. rewrite E1. reflexivity. }
    clear HS. pose proof (any_of_aff _ (C61_history st ws Hh)) as HhX.
    refine (@C55_global HO (exact_state st) (fun _ => ans) (exact_model m) (exact_model m') k' HhX (exact_in _ _ Hm) HX (exact_meaningful st ws m Hh Hm) _ _ _ _).
    - destruct (hist_aff _ (C61_history st ws Hh)) as (_ & _ & H3). rewrite Forall_forall in H3. destruct (H3 _ (exact_in _ _ Hm)) as (A1 & A2 & _).
      split; [exact A1|]. intros c Hc. rewrite Forall_forall in A2. exact (A2 c Hc).
    - intros Hi. apply Hni, exact_integer, Hi.
    - intros sp' stat s' E' Ea. change (st_k (exact_state st)) with (st_k st) in E'. pose proof (C61_problem HO st ws m Hh Hn Hm) as G. rewrite E' in G.
      unfold ans in Ea. destruct (@std_problem F NF HO m (st_k st)) as [[sp k]|] eqn:Esp; [|contradiction]. destruct G as [-> [Hsd _]].
      destruct (solver (sp_prob sp)) as [[[stat0 s]|e]|q] eqn:Eso; cbn [exact_answer] in Ea; try discriminate. injection Ea as <- <-.
      destruct (Hsol sp stat0 s eq_refl Eso) as [Hfin Hopt]. exists (map fval (s_x s)). split.
      + cbn [exact_sol s_x]. unfold pt. rewrite map_map. clear -Hfin. induction Hfin as [|v l Hv Hl IH]; cbn; [reflexivity|]. unfold xval at 1. rewrite Hv, IH. reflexivity.
      + exact (optimal_data HO (exact_state st) (exact_model m) sp' k' (sp_prob sp) HhX (exact_in _ _ Hm) E' Hsd _ Hopt).
    - intros v r Hv. cbn [exact_model md_primals] in Hv. unfold exact_vals in Hv. apply in_map_iff in Hv as ([u x] & Ev & Hin). cbn [fst snd] in Ev. injection Ev as <- Ex.
      unfold xval in Ex. destruct (finiteb x); [|discriminate]. injection Ex as <-. exact (Hbox u x Hin).
  Qed.
End ExactModel.

Lemma neutral_id : neutral ord_id.
Proof. intros A B R s t l l' Hl. exact Hl. Qed.
Lemma neutral_rev : neutral ord_rev.
Proof.
  intros A B R s t l l' Hl. cbn. induction Hl as [|a b l l' Hab Hl IH]; cbn; [constructor|]. apply Forall2_app2; [exact IH|]. constructor; [exact Hab|constructor].
Qed.

(** ** The hypotheses are met

      minimise 2 x + 3 y   subject to   x + y == 10,  x <= 4,  x >= 0,  y >= 0
    solved by a solver that answers x = 4, y = 6 (and -6 for the slack of 0 <= y). *)
Section Ex61.
  Local Existing Instance NumF0.
  Definition ans61 : sol F := mk_sol [flit (-6); flit 4; flit 6] [flit 3; flit 0] [] [flit 0; flit 1; flit 0] [flit 0; flit 0; flit 0].
  Definition fopp0 : F := S754_zero true.
  Definition solver61 : problem F -> res (@answer F) := fun _ => Ok (inl (Solved, ans61)).
  Definition prog61 : list (call F) :=
    [CExpr (OVar "x" VarContinuous); CExpr (OVar "y" VarContinuous); CExpr (OMulNS 0 (flit 2)); CExpr (OMulSN (flit 3) 1); CExpr (OAddNN 2 3);
     CExpr (OAddNN 0 1); CCmpNS 5 Equal (flit 10) ""; CCmpNS 0 LessEqual (flit 4) ""; CCmpNS 0 GreaterEqual (flit 0) ""; CCmpSN (flit 0) LessEqual 1 "";
     CNewModel; CAddConstrs 0 [0; 1; 2; 3]; CSetObj 0 Minimise 4].
  Definition st61 : mstate F := match mrun (H0 := ord_id) prog61 mstart with Some st => st | None => mstart end.
  Ltac hstep H c t :=
    let H' := fresh in
    eassert (H' : int_hist _ _) by
      (eapply (@ih_step NumF0 exact_limit ord_id _ _ c); [exact neutral_id|exact H|t|vm_compute; reflexivity]);
    clear H; rename H' into H; cbn [app] in H.
  Lemma hist61 : exists ws, int_hist st61 ws.
  Proof.
    assert (I : forall z, (Z.abs z <= 100)%Z -> integer (flit z) z) by (intros z Hz; apply fl_int; lia).
    assert (H0 : int_hist mstart []) by apply ih_start.
    hstep H0 (CExpr (@OVar F "x" VarContinuous)) ltac:(eapply ic_expr; [exact Logic.I|apply sz_var|vm_compute; discriminate]).
    hstep H0 (CExpr (@OVar F "y" VarContinuous)) ltac:(eapply ic_expr; [exact Logic.I|apply sz_var|vm_compute; discriminate]).
    hstep H0 (CExpr (OMulNS 0 (flit 2))) ltac:(eapply ic_expr; [exact Logic.I|eapply sz_mul_ns; [reflexivity|apply (I 2%Z); lia]|vm_compute; discriminate]).
    hstep H0 (CExpr (OMulSN (flit 3) 1)) ltac:(eapply ic_expr; [exact Logic.I|eapply sz_mul_sn; [reflexivity|apply (I 3%Z); lia]|vm_compute; discriminate]).
    hstep H0 (CExpr (@OAddNN F 2 3)) ltac:(eapply ic_expr; [exact Logic.I|eapply sz_add_nn; reflexivity|vm_compute; discriminate]).
    hstep H0 (CExpr (@OAddNN F 0 1)) ltac:(eapply ic_expr; [exact Logic.I|eapply sz_add_nn; reflexivity|vm_compute; discriminate]).
    hstep H0 (CCmpNS 5 Equal (flit 10) "") ltac:(eapply ic_ns; [reflexivity|apply (I 10%Z); lia|vm_compute; discriminate]).
    hstep H0 (CCmpNS 0 LessEqual (flit 4) "") ltac:(eapply ic_ns; [reflexivity|apply (I 4%Z); lia|vm_compute; discriminate]).
    hstep H0 (CCmpNS 0 GreaterEqual (flit 0) "") ltac:(eapply ic_ns; [reflexivity|apply (I 0%Z); lia|vm_compute; discriminate]).
    hstep H0 (CCmpSN (flit 0) LessEqual 1 "") ltac:(eapply ic_sn; [reflexivity|apply (I 0%Z); lia|vm_compute; discriminate]).
    hstep H0 (@CNewModel F) ltac:(apply ic_new).
    hstep H0 (@CAddConstrs F 0 [0; 1; 2; 3]) ltac:(apply ic_adds).
    hstep H0 (@CSetObj F 0 Minimise 4) ltac:(apply ic_obj).
    eexists. match type of H0 with int_hist ?s ?w => enough (E : st61 = s) by (rewrite E; exact H0); vm_cast_no_check (@eq_refl (mstate F) s) end.
  Qed.
  Definition m61 : model F := match st_models st61 with m :: _ => m | [] => model_new end.
  Example C61_example : exists ws m' k', int_hist st61 ws /\ neutral ord_id /\ In m61 (st_models st61) /\ ~ some_integer m61 /\
    @solve F _ ord_id solver61 m61 (st_k st61) = (m', Returned (inl tt), k') /\
    (forall sp stat s, @std_problem F _ ord_id m61 (st_k st61) = Ok (sp, k') -> solver61 (sp_prob sp) = Ok (inl (stat, s)) ->
       Forall (fun v => finiteb v = true) (s_x s) /\ data_optimal (sp_prob sp) (map fval (s_x s))) /\
    (forall v x, In (v, x) (md_primals m') -> (Rabs (fval x) < 100000000)%R).
  Proof.
    destruct hist61 as [ws Hh].
    assert (V : forall z, (Z.abs z <= 100000000)%Z -> fval (flit z) = IZR z) by (intros z Hz; apply fl_int; lia).
    assert (Ei : forall v, sub v (NVar 0 "x" VarContinuous : node F) -> v = NVar 0 "x" VarContinuous).
    { intros v Hs. inversion Hs; subst; auto. destruct H. }
    eexists ws, _, _. split; [exact Hh|]. split; [exact neutral_id|]. split.
    { assert (E : st_models st61 = [m61]) by (vm_compute; reflexivity). rewrite E. left. reflexivity. }
    split.
    { intros (v & Hv & Hi). assert (Hk : forall n : node F, In n [NAdd 6
           [NMul 3 (NVar 0 "x" VarContinuous) (NConst 2 (flit 2)); NMul 5 (NConst 4 (flit 3)) (NVar 1 "y" VarContinuous)];
           NAdd 7 [NVar 0 "x" VarContinuous; NVar 1 "y" VarContinuous]; NConst 8 (flit 10); NVar 0 "x" VarContinuous; NConst 10 (flit 4); NConst 12 (flit 0); NConst 14 (flit 0); NVar 1 "y" VarContinuous] -> occurs v n -> False).
      { clear Hv. intros n Hn [Hv Hs]. repeat match goal with
        | H : In _ [] |- _ => destruct H
        | H : In _ (arguments _) |- _ => cbn [arguments] in H
        | H : In _ (_ :: _) |- _ => destruct H as [H|H]; [subst|]
        | H : sub _ _ |- _ => inversion H; subst; clear H; try discriminate Hv; try discriminate Hi; [idtac]
        end. }
      destruct Hv as [Hv|(c & Hc & Hv)].
      - eapply Hk; [left; reflexivity|exact Hv].
      - vm_compute in Hc. destruct Hc as [<-|[<-|[<-|[<-|[]]]]]; cbn [clhs crhs] in Hv; destruct Hv as [Hv|Hv]; (eapply Hk; [|exact Hv]); vm_compute; tauto. }
    split; [vm_compute; reflexivity|]. split.
    2:{ intros v x Hin. assert (Hx : exists z, x = flit z /\ (Z.abs z < 100)%Z).
        { vm_compute in Hin. destruct Hin as [Hin|[Hin|[Hin|[]]]]; injection Hin as _ <-; [exists (-6)%Z|exists 4%Z|exists 6%Z]; (split; [vm_compute; reflexivity|lia]). }
        destruct Hx as (z & -> & Hz). rewrite V by lia. rewrite <- abs_IZR. apply IZR_lt. lia. }
    intros sp stat s E Es. injection Es as _ <-. split; [repeat constructor|].
    assert (C : match @std_problem F _ ord_id m61 (st_k st61) with
                | Ok (sp, _) => (lin_c (sp_prob sp), entries (m_a (base_of (sp_prob sp))), m_b (base_of (sp_prob sp)), m_l (base_of (sp_prob sp)), m_u (base_of (sp_prob sp)),
                                 m_p (base_of (sp_prob sp)), m_nx (base_of (sp_prob sp)))
                | _ => ([], [], [], [], [], [], 0) end =
                ([flit 0; flit 2; flit 3], [(0, 1, flit 1); (0, 2, flit 1); (1, 2, flit (-1)); (1, 0, flit (-1))], [flit 10; flit 0],
                 [flit (-100000000); fopp0; flit (-100000000)], [flit 0; flit 4; flit 100000000], [false; false; false], 3)) by (vm_compute; reflexivity).
    rewrite E in C.
    assert (P7 : forall A1 A2 A3 A4 A5 A6 A7 (a1 b1 : A1) (a2 b2 : A2) (a3 b3 : A3) (a4 b4 : A4) (a5 b5 : A5) (a6 b6 : A6) (a7 b7 : A7),
      (a1, a2, a3, a4, a5, a6, a7) = (b1, b2, b3, b4, b5, b6, b7) -> a1 = b1 /\ a2 = b2 /\ a3 = b3 /\ a4 = b4 /\ a5 = b5 /\ a6 = b6 /\ a7 = b7)
      by (intros * H; injection H as <- <- <- <- <- <- <-; repeat split).
    apply P7 in C. destruct C as (C1 & C2 & C3 & C4 & C5 & C6 & C7). clear P7.
    assert (Hrow : forall r x, rowR (m_a (base_of (sp_prob sp))) r x = fold_right Rplus 0%R (map (fun e => fval (snd e) * nth (snd (fst e)) x 0)%R (filter (fun e => fst (fst e) =? r)
               [(0, 1, flit 1); (0, 2, flit 1); (1, 2, flit (-1)); (1, 0, flit (-1))]))) by (intros r x; unfold rowR; rewrite C2; reflexivity).
    assert (Z0 : fval fopp0 = 0%R) by reflexivity.
    assert (VV : fval (flit 0) = 0%R /\ fval (flit 1) = 1%R /\ fval (flit 2) = 2%R /\ fval (flit 3) = 3%R /\ fval (flit 4) = 4%R /\ fval (flit 6) = 6%R /\ fval (flit 10) = 10%R /\
                 fval (flit (-1)) = (-1)%R /\ fval (flit (-6)) = (-6)%R /\ fval (flit 100000000) = 100000000%R /\ fval (flit (-100000000)) = (-100000000)%R)
      by (repeat split; apply V; lia).
    destruct VV as (V0 & V1 & V2 & V3 & V4 & V6 & V10 & Vm1 & Vm6 & Vb & Vmb).
    assert (Hr : forall a b c, rowR (m_a (base_of (sp_prob sp))) 0 [a; b; c] = (b + c)%R /\ rowR (m_a (base_of (sp_prob sp))) 1 [a; b; c] = (- c - a)%R).
    { intros a b c. split; rewrite Hrow; cbn [filter Nat.eqb fst snd map fold_right nth]; rewrite ?V1, ?Vm1; ring. }
    assert (Hc : forall a b c, dotR (lin_c (sp_prob sp)) [a; b; c] = (2 * b + 3 * c)%R).
    { intros a b c. rewrite C1. unfold dotR. cbn [combine map fold_right fst snd]. rewrite V0, V2, V3. ring. }
    assert (Ex : map fval (s_x ans61) = [(-6)%R; 4%R; 6%R]) by (unfold ans61; cbn [s_x map]; rewrite V4, V6, Vm6; reflexivity).
    assert (SI : forall A (a b : A), Some a = Some b -> b = a) by (intros A a b H; injection H as <-; reflexivity).
    rewrite Ex. split.
    - split; [rewrite C7; reflexivity|]. rewrite C3, C4, C5, C6. split.
      + intros r b Hb. destruct r as [|[|r]]; cbn [nth_error] in Hb.
        * apply SI in Hb. rewrite Hb, (proj1 (Hr _ _ _)), V10. lra.
        * apply SI in Hb. rewrite Hb, (proj2 (Hr _ _ _)), V0. lra.
        * destruct r; discriminate Hb.
      + intros i r Hi. destruct i as [|[|[|i]]]; cbn [nth_error] in Hi |- *; try (destruct i; discriminate Hi); injection Hi as <-.
        all: split; [eexists _, _; split; [reflexivity|]; split; [reflexivity|]; rewrite ?V0, ?V4, ?Vb, ?Vmb, ?Z0; lra|discriminate].
    - intros y (Ly & Hy & Hb). rewrite C7 in Ly. destruct y as [|a [|b [|c [|? ?]]]]; try discriminate Ly. rewrite !Hc.
      rewrite C3, C4, C5, C6 in *. pose proof (Hy 0 _ eq_refl) as H1. rewrite (proj1 (Hr _ _ _)), V10 in H1.
      destruct (Hb 1 b eq_refl) as [(l & u & El & Eu & [_ Hu]) _]. apply SI in Eu. rewrite Eu, V4 in Hu. lra.
  Qed.
End Ex61.
