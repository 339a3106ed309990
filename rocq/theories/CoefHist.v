(** Histories of linear models in binary64: every side and objective has its estimate. *)
From Verif Require Import Base Num Node NodeInd NodeDiff NodeStd Constraint Matrix Problem ModelStd Model
     ExprSpec World MapProofs StdPropProofs EvalProofs GradProofs OccProofs ConstrSpec ConstrProofs PartsProofs ConstrEquiv
     MatSpec ProblemProofs BuildProofs BuildMain ModelSpec StdFacts
     Api ApiProofs ModelApi StdMain HistProofs HistAff TextSpec ExactSpec RoundSpec
     CoefSpec CoefProofs.
From Coq Require Import Reals Floats.SpecFloat.

Section CoefHist.
  Variables fsin fcos : F -> F.
  Notation NF := (NumF fsin fcos).
  Local Instance num_f : Num F := NF.
  Notation fitsa := (CoefProofs.fitsa fsin fcos).

  Definition some_est st es n := exists e, has_est st es n e.
  Definition sides_est st es (c : constraint F) := some_est st es (clhs c) /\ some_est st es (crhs c).
  Record model_est (st : mstate F) (es : list aest) (m : model F) : Prop := {
    me_obj : exists e, obj_est st es (md_objective m) e;
    me_cons : Forall (sides_est st es) (md_constraints m);
    me_prim : Forall (fun vx => is_var (fst vx) = true) (md_primals m) }.
  Record cinv (st : mstate F) (es : list aest) : Prop := {
    ci_pool : Forall2 fitsa (st_pool st) es;
    ci_cons : Forall (sides_est st es) (st_cons st);
    ci_models : Forall (model_est st es) (st_models st) }.

  (** Estimates are kept when the pool grows. *)
  Definition grows (st : mstate F) (es : list aest) (st' : mstate F) (es' : list aest) : Prop :=
    exists ns ds, st_pool st' = st_pool st ++ ns /\ es' = es ++ ds.
  Lemma grows_same st es st' : st_pool st' = st_pool st -> grows st es st' es.
  Proof. intros E. exists [], []. rewrite !app_nil_r. auto. Qed.
  Lemma has_grows st es st' es' n e : grows st es st' es' -> has_est st es n e -> has_est st' es' n e.
  Proof.
    intros (ns & ds & E1 & ->) [(i & H1 & H2)|Hc]; [left|right; exact Hc]. exists i. rewrite E1. split.
    - rewrite nth_error_app1; [exact H1|]. apply nth_error_Some. rewrite H1. discriminate.
    - rewrite nth_error_app1; [exact H2|]. apply nth_error_Some. rewrite H2. discriminate.
  Qed.
  Lemma some_grows st es st' es' n : grows st es st' es' -> some_est st es n -> some_est st' es' n.
  Proof. intros Hg (e & He). exists e. eapply has_grows; eauto. Qed.
  Lemma sides_grows st es st' es' c : grows st es st' es' -> sides_est st es c -> sides_est st' es' c.
  Proof. intros Hg [H1 H2]. split; eapply some_grows; eauto. Qed.
  Lemma model_grows st es st' es' m : grows st es st' es' -> model_est st es m -> model_est st' es' m.
  Proof.
    intros Hg [(e & H1) H2 H3]. constructor; [|eapply Forall_impl; [|exact H2]; intros c; eapply sides_grows; eauto|exact H3].
    destruct (md_objective m) as [f|f|].
    - exists e. exact (has_grows _ _ _ _ _ _ Hg H1).
    - destruct H1 as (e' & H1 & ->). exists (a_neg e'). exists e'. split; [exact (has_grows _ _ _ _ _ _ Hg H1)|reflexivity].
    - exists e. exact H1.
  Qed.

  Lemma solve_prim {HO : HashOrd} k S solver (m m' : model F) o k' :
    world false k S -> model_in S m -> Forall (fun vx => is_var (fst vx) = true) (md_primals m) ->
    solve solver m k = (m', o, k') -> Forall (fun vx => is_var (fst vx) = true) (md_primals m').
  Proof.
    intros HW Hm _ E.
    unfold solve in E. destruct (std_problem (reset m) k) as [[sp k1]|p] eqn:Ep.
    2: { inversion E; subst. constructor. }
    destruct (std_problem_run false k S (reset m) sp k1 HW (reset_in _ _ Hm) Ep)
      as (obj & S' & eo & ke & ko & ps & ar & jr & uc & lc & Em & R & -> & _).
    destruct (solver _) as [[[s0 s]|e]|p]; [|inversion E; subst; constructor|inversion E; subst; constructor].
    destruct (record_solution _ _ s0 s (reset m)) as [m2 op] eqn:Er.
    assert (m' = m2) as -> by (destruct op; inversion E; auto).
    match type of Er with record_solution ?t ?sp0 _ _ _ = _ =>
      pose proof (record_inputs t sp0 s0 s (reset m)) as [_ G] end.
    rewrite Er in G. cbn [fst md_primals reset map sp_var2index] in G.
    apply Forall_forall. intros [v x] Hv. cbn [fst].
    destruct (G v) as [Gv|[]]; [apply (in_map fst) in Hv; exact Hv|].
    rewrite run_v2i_keys in Gv. exact (proj2 (run_vars_world _ _ _ _ _ _ _ _ _ _ _ _ _ v R Gv)).
  Qed.

  Lemma F2_len {A B} (Q : A -> B -> Prop) l l' : Forall2 Q l l' -> length l = length l'.
  Proof. induction 1; cbn; congruence. Qed.

  Theorem lin_cinv st es : @lin_hist NF st es -> hist affine_op st /\ cinv st es.
  Proof.
    induction 1 as [|HO st es c st' es' Hl [Hh [CP CC CM]] Hc E]; [split; [constructor|constructor; constructor]|].
    assert (Hany : hist any_op st) by (eapply hist_weaken; [|exact Hh]; intros; exact I).
    destruct (hist_inv false st) as (S & Hi); [exact Hany|].
    pose proof (F2_len _ _ _ CP) as Hlen.
    assert (Hpool : forall i n, nth_error (st_pool st) i = Some n -> some_est st es n).
    { intros i n Hn. destruct (nth_error es i) as [e|] eqn:Ee.
      - exists e. left. eauto.
      - apply nth_error_None in Ee. rewrite <- Hlen in Ee. apply nth_error_None in Ee. congruence. }
    assert (HC : forall i a, nth_error (st_cons st) i = Some a -> sides_est st es a).
    { intros i a Ha. rewrite Forall_forall in CC. eauto using nth_error_In. }
    assert (HM : forall i a, nth_error (st_models st) i = Some a -> model_est st es a).
    { intros i a Ha. rewrite Forall_forall in CM. eauto using nth_error_In. }
    split.
    { econstructor; [exact Hh| |exact E]. destruct Hc as [o e Ho|i kd j label|i kd v label Hv|i kd v label Hv| |j i|j is|j s i|j|j values|j solver|j i md vx Hmd Hvx]; cbn [call_ok]; try exact I.
      exact (aff_est_affine fsin fcos _ _ _ _ _ CP Ho). }
    assert (Hsame : forall st1, st_pool st1 = st_pool st -> st_cons st1 = st_cons st -> Forall (model_est st es) (st_models st1) -> cinv st1 es).
    { intros st1 E1 E2 HF. pose proof (grows_same st es st1 E1) as Hg. constructor.
      - rewrite E1. exact CP.
      - rewrite E2. eapply Forall_impl; [|exact CC]. intros d. eapply sides_grows; eauto.
      - eapply Forall_impl; [|exact HF]. intros d. eapply model_grows; eauto. }
    assert (Hupd : forall j f st1, upd_model st j f = Some st1 ->
      (forall md md', model_est st es md -> f md = Some md' -> model_est st es md') -> cinv st1 es).
    { intros j f st1 Eu Hf. unfold upd_model in Eu. destruct (nth_error (st_models st) j) as [md|] eqn:Ej; [|discriminate].
      destruct (f md) as [md'|] eqn:Ef; [|discriminate]. injection Eu as <-.
      apply Hsame; try reflexivity. apply set_nth_Forall; [exact CM|]. eauto. }
    assert (Hcons : forall st1 c0, st_pool st1 = st_pool st -> st_cons st1 = st_cons st ++ [c0] -> st_models st1 = st_models st ->
              sides_est st es c0 -> cinv st1 es).
    { intros st1 c0 E1 E2 E3 Hs. pose proof (grows_same st es st1 E1) as Hg. constructor.
      - rewrite E1. exact CP.
      - rewrite E2. apply Forall_app. split; [|constructor; [|constructor]]; [eapply Forall_impl; [|exact CC]; intros d|]; eapply sides_grows; eauto.
      - rewrite E3. eapply Forall_impl; [|exact CM]. intros d. eapply model_grows; eauto. }
    assert (Hnode : forall st1 n e, st_pool st1 = st_pool st ++ [n] -> st_cons st1 = st_cons st -> st_models st1 = st_models st ->
              fitsa n e -> cinv st1 (es ++ [e])).
    { intros st1 n e E1 E2 E3 Hf. assert (Hg : grows st es st1 (es ++ [e])) by (exists [n], [e]; auto). constructor.
      - rewrite E1. apply Forall2_app; [exact CP|]. constructor; [exact Hf|constructor].
      - rewrite E2. eapply Forall_impl; [|exact CC]. intros d. eapply sides_grows; eauto.
      - rewrite E3. eapply Forall_impl; [|exact CM]. intros d. eapply model_grows; eauto. }
    assert (Hnum : forall i v, finite64 v -> some_est st es (NConst i v)) by (intros i v Hv; exists (a_num v); right; eauto).
    destruct Hc as [o e Ho|i kd j label|i kd v label Hv|i kd v label Hv| |j i|j is|j s i|j|j values|j solver|j i md vx Hmd Hvx]; cbn [mexec] in E.
    - unfold new_node in E. destruct (exec (st_pool st) o (st_k st)) as [[n k']|p] eqn:Eo; [|discriminate]. injection E as <-.
      apply (Hnode _ n); try reflexivity. eapply aff_step; [exact CP|exact Ho|exact Eo].
    - unfold opt_bind in E. destruct (nth_error (st_pool st) i) as [a|] eqn:Ea; [|discriminate].
      destruct (nth_error (st_pool st) j) as [b|] eqn:Eb; [|discriminate]. cbn in E. injection E as <-.
      eapply Hcons; try reflexivity. split; cbn; eauto.
    - unfold opt_bind in E. destruct (nth_error (st_pool st) i) as [a|] eqn:Ea; [|discriminate]. cbn in E. injection E as <-.
      eapply Hcons; try reflexivity. split; cbn; eauto.
    - unfold opt_bind in E. destruct (nth_error (st_pool st) i) as [a|] eqn:Ea; [|discriminate]. cbn in E. injection E as <-.
      eapply Hcons; try reflexivity. split; cbn; eauto.
    - injection E as <-. apply Hsame; try reflexivity. apply Forall_app. split; [exact CM|]. constructor; [|constructor].
      constructor; [exists (a_num (flit 0)); reflexivity|constructor|constructor].
    - unfold opt_bind in E. destruct (nth_error (st_cons st) i) as [c|] eqn:Ec; [|discriminate].
      eapply Hupd; [exact E|]. intros md md' [M1 M2 M3] Ef. injection Ef as <-. constructor; [exact M1| |exact M3].
      cbn. apply Forall_app. split; [exact M2|]. constructor; [eauto|constructor].
    - unfold opt_bind in E. destruct (picks (st_cons st) is) as [cs|] eqn:Ec; [|discriminate].
      eapply Hupd; [exact E|]. intros md md' [M1 M2 M3] Ef. injection Ef as <-. constructor; [exact M1| |exact M3].
      cbn. apply Forall_app. split; [exact M2|]. apply Forall_forall. intros c Hc. pose proof (picks_in _ _ _ Ec c Hc) as Hin.
      rewrite Forall_forall in CC. auto.
    - unfold opt_bind in E. destruct (nth_error (st_pool st) i) as [f|] eqn:Ef; [|discriminate].
      eapply Hupd; [exact E|]. intros md md' [M1 M2 M3] Ef'. injection Ef' as <-. constructor; [|exact M2|exact M3].
      destruct (Hpool i f Ef) as (e & He). destruct s; [exists e; exact He|exists (a_neg e); exists e; auto].
    - eapply Hupd; [exact E|]. intros md md' [M1 M2 M3] Ef'. injection Ef' as <-. constructor; [|exact M2|exact M3]. exists (a_num (flit 0)). reflexivity.
    - unfold opt_bind in E. destruct (picks (st_pool st) (map fst values)) as [ns|] eqn:Ec; [|discriminate].
      eapply Hupd; [exact E|]. intros md md' [M1 M2 M3] Ef'. injection Ef' as <-. constructor; assumption.
    - unfold opt_bind in E. destruct (nth_error (st_models st) j) as [md|] eqn:Ej; [|discriminate].
      destruct (solve solver md (st_k st)) as [[md' o] k'] eqn:Es. injection E as <-.
      apply Hsame; try reflexivity. apply set_nth_Forall; [exact CM|].
      pose proof (hi_models _ _ _ Hi) as G. rewrite Forall_forall in G.
      destruct (G md (nth_error_In _ _ Ej)) as (M1 & _ & _). destruct (HM j md Ej) as [N1 N2 N3].
      destruct (solve_inputs solver md (st_k st) md' o k' Es) as (Q1 & Q2 & _).
      constructor; [rewrite Q1; exact N1|rewrite Q2; exact N2|].
      exact (solve_prim _ S solver md md' o k' (hi_world _ _ _ Hi) M1 N3 Es).
    - unfold opt_bind in E. rewrite Hmd, Hvx in E. injection E as <-. apply (Hnode _ (fst vx)); try reflexivity.
      apply fits_is_var. pose proof (me_prim _ _ _ (HM j md Hmd)) as Gp. rewrite Forall_forall in Gp. exact (Gp vx (nth_error_In _ _ Hvx)).
  Qed.

  Lemma has_fits st es n e : @lin_hist NF st es -> has_est st es n e -> fitsa n e.
  Proof.
    intros Hl He. destruct (lin_cinv st es Hl) as [_ [CP _ _]]. destruct He as [(i & H1 & H2)|(i & v & -> & Hv & ->)].
    - exact (F2_nth _ _ _ _ _ _ CP H1 H2).
    - apply fits_num. exact Hv.
  Qed.
End CoefHist.
