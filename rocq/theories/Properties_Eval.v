(** Property C30: evaluating the standard problem of a model gives the objective,
    the nonlinear functions and their derivatives. *)
From Verif Require Import Base Num Node NodeInd NodeDiff NodeStd Constraint Matrix Problem ModelStd Model
     ExprSpec World MapProofs StdPropProofs EvalProofs DiffSpec DiffProofs PanicProofs GradProofs HessProofs CompProofs
     OccProofs ConstrSpec ConstrProofs ConstrEquiv PartsProofs
     MatSpec MatrixProofs ProblemProofs BuildProofs BuildMain ModelSpec PointProofs EvalRun StdFacts JacProofs EvalSpec
     Api ApiProofs ModelApi StdMain HistProofs Properties_Constr Properties_Std Properties_Feas.
From Coq Require Import Reals Lra.

Lemma hist_any {T} `{Num T} `{HashOrd} P (st : mstate T) : hist P st -> hist any_op st.
Proof.
  induction 1 as [|HO st c st' Hs IH Hc E]; [constructor|]. eapply hist_step; [exact IH| |exact E].
  destruct c; cbn in *; auto. exact I.
Qed.

(** ** Derivatives depend on values only *)
Lemma partial_of_ext F G vs v l : (forall vs, F vs = G vs) -> partial_of F vs v l -> partial_of G vs v l.
Proof. intros E (x0 & Ev & Hd). exists x0. split; [exact Ev|]. eapply hd_ext; [|exact Hd]. intros t. apply E. Qed.
Lemma second_partial_of_ext F G vs v w l :
  (forall vs, F vs = G vs) -> second_partial_of F vs v w l -> second_partial_of G vs v w l.
Proof.
  intros E (x2 & d & g & Ex & Hg & Hl). exists x2, d, g. split; [exact Ex|]. split; [|exact Hl].
  intros t Ht. eapply partial_of_ext; eauto.
Qed.

(** ** Matrix entries *)
Lemma entries_map {A} (l : list A) (r c : A -> nat) (d : A -> X) n m dd :
  entries (with_data (mk_coo n m (map r l) (map c l) dd) (map d l)) = map (fun a => (r a, c a, d a)) l.
Proof.
  unfold entries, with_data. cbn [coo_ri coo_ci coo_data]. induction l as [|a l IH]; [reflexivity|].
  cbn [map combine]. rewrite IH. reflexivity.
Qed.
Lemma xsum_one x : xsum [x] = x.
Proof. rewrite xsum_cons. destruct x; cbn; auto. f_equal; lra. Qed.

(** At most one element satisfies the test. *)
Lemma filter_one {A} (l : list A) (p : A -> bool) a :
  NoDup l -> In a l -> p a = true -> (forall b, In b l -> p b = true -> b = a) -> filter p l = [a].
Proof.
  induction 1 as [|b l Hb Hn IH]; [intros []|]. intros [->|Ha] Hp Hu; cbn [filter].
  - rewrite Hp. f_equal. rewrite <- (filter_ext_in (fun _ => false)).
    + clear. induction l; auto.
    + intros b Hin. symmetry. apply not_true_is_false. intros Eb. rewrite (Hu b) in Hin; cbn; auto.
  - destruct (p b) eqn:Eb.
    + exfalso. apply Hb. rewrite (Hu b); cbn; auto.
    + apply IH; auto. intros; apply Hu; cbn; auto.
Qed.
Lemma filter_zero {A} (l : list A) (p : A -> bool) : (forall b, In b l -> p b = true -> False) -> filter p l = [].
Proof.
  intros Hn. induction l as [|b l IH]; [reflexivity|]. cbn [filter]. destruct (p b) eqn:Eb.
  - exfalso. apply (Hn b); cbn; auto.
  - apply IH. intros; eapply Hn; cbn; eauto.
Qed.
Lemma NoDup_fst {A B} (l : list (A * B)) : NoDup (map fst l) -> NoDup l.
Proof. apply NoDup_map_inv. Qed.

Section At.
  Variable vars : list nodeX.
  Hypothesis Hnd : nodupk ptr_eq vars.

  Lemma jac_at (cs : list (nat * nodeX * nodeX)) n m dd (vs : valsX) r v i :
    nth_error vars i = Some v -> Forall (fun e => In (snd (fst e)) vars) cs -> NoDup (map fst (jrow r cs)) ->
    let mat := with_data (mk_coo n m (map (fun e => fst (fst e)) cs) (map (fun e => ix vars (snd (fst e))) cs) dd)
                         (map (fun e => evaluate vs (snd e)) cs) in
    (forall d, In (v, d) (jrow r cs) -> coo_at mat r i = evaluate vs d) /\
    (~ In v (map fst (jrow r cs)) -> coo_at mat r i = Some 0%R).
  Proof.
    intros Hi HF HN mat.
    assert (E : coo_at mat r i = xsum (map (fun e => evaluate vs (snd e)) (filter (fun e => (ix vars (fst e) =? i)%nat) (jrow r cs)))).
    { unfold coo_at, mat. rewrite entries_map. f_equal. clear -HF. unfold jrow.
      induction HF as [|e cs He HF IH]; [reflexivity|]. cbn [map filter fst snd].
      destruct (fst (fst e) =? r)%nat; cbn [andb map filter fst snd]; [|exact IH].
      destruct (ix vars (snd (fst e)) =? i)%nat; cbn [map fst snd]; [f_equal|]; exact IH. }
    assert (Hv : forall e, In e (jrow r cs) -> (ix vars (fst e) =? i)%nat = true -> fst e = v).
    { intros e He Ee. apply Nat.eqb_eq in Ee. unfold jrow in He. apply in_map_iff in He as (e0 & <- & He). cbn [fst] in *.
      apply filter_In in He as [He _]. rewrite Forall_forall in HF. pose proof (ix_nth vars Hnd _ (HF _ He)) as Hn. congruence. }
    assert (Hiv : (ix vars v =? i)%nat = true) by (apply Nat.eqb_eq; apply (nth_ix vars Hnd); exact Hi).
    rewrite E. split.
    - intros d Hd. rewrite (filter_one _ _ (v, d)); [cbn [map snd]; apply xsum_one| | | |].
      + apply NoDup_fst. exact HN.
      + exact Hd.
      + exact Hiv.
      + intros [w d'] Hb Eb. pose proof (Hv _ Hb Eb) as Ew. cbn [fst] in Ew. subst w.
        revert Hd Hb HN. clear. induction (jrow r cs) as [|[a b] l IH]; [intros []|]. cbn [map fst].
        intros [E1|H1] [E2|H2] HN; inversion HN as [|? ? Hx HN']; subst.
        * congruence.
        * injection E1 as -> ->. exfalso. apply Hx. apply in_map_iff. exists (v, d'). auto.
        * injection E2 as -> ->. exfalso. apply Hx. apply in_map_iff. exists (v, d). auto.
        * auto.
    - intros Hn. rewrite filter_zero; [reflexivity|]. intros e He Ee. apply Hn. rewrite <- (Hv e He Ee). apply in_map. exact He.
  Qed.

  Lemma hess_at (hs : list (nodeX * nodeX * nodeX)) n (vs : valsX) v i w j :
    nth_error vars i = Some v -> nth_error vars j = Some w -> (j <= i)%nat -> upairs hs ->
    Forall (fun e => In (fst (fst e)) vars /\ In (snd (fst e)) vars) hs ->
    let mat := with_data (hess_of vars n hs) (map (fun e => evaluate vs (snd e)) hs) in
    (forall d, In (v, w, d) hs \/ In (w, v, d) hs -> coo_at mat i j = evaluate vs d) /\
    (~ In (v, w) (map fst hs) -> ~ In (w, v) (map fst hs) -> coo_at mat i j = Some 0%R).
  Proof.
    intros Hi Hj Hji [HN HU] HF mat.
    pose proof (nth_ix vars Hnd _ _ Hi) as Iv. pose proof (nth_ix vars Hnd _ _ Hj) as Iw.
    set (p := fun e : nodeX * nodeX * nodeX => ((Nat.max (ix vars (fst (fst e))) (ix vars (snd (fst e))) =? i) &&
                       (Nat.min (ix vars (fst (fst e))) (ix vars (snd (fst e))) =? j))%nat).
    assert (E : coo_at mat i j = xsum (map (fun e => evaluate vs (snd e)) (filter p hs))).
    { unfold coo_at, mat, hess_of. rewrite entries_map. f_equal. clear. unfold p.
      induction hs as [|e hs IH]; [reflexivity|]. cbn [map filter fst snd].
      match goal with |- context [if ?b then _ else _] => destruct b end; cbn [map snd]; [f_equal|]; exact IH. }
    assert (Hp : forall e, In e hs -> p e = true -> fst e = (v, w) \/ fst e = (w, v)).
    { intros [[a b] d] He Ee. unfold p in Ee. cbn [fst snd] in *. apply andb_true_iff in Ee as [E1 E2].
      apply Nat.eqb_eq in E1. apply Nat.eqb_eq in E2. rewrite Forall_forall in HF. destruct (HF _ He) as [Fa Fb]. cbn [fst snd] in *.
      pose proof (ix_nth vars Hnd a Fa) as Na. pose proof (ix_nth vars Hnd b Fb) as Nb.
      assert (Hc : (ix vars a = i /\ ix vars b = j) \/ (ix vars a = j /\ ix vars b = i)) by lia.
      destruct Hc as [[Ea Eb]|[Ea Eb]]; rewrite Ea in Na; rewrite Eb in Nb; [left|right]; congruence. }
    rewrite E. split.
    - intros d Hd.
      assert (G : exists e, In e hs /\ snd e = d /\ (fst e = (v, w) \/ fst e = (w, v))) by (destruct Hd; eauto).
      destruct G as (e & He & <- & Hfe). clear Hd.
      rewrite (filter_one _ _ e); [cbn [map snd]; apply xsum_one| | | |].
      + apply NoDup_fst. exact HN.
      + exact He.
      + unfold p. destruct Hfe as [-> | ->]; cbn [fst snd]; rewrite Iv, Iw; apply andb_true_iff; split; apply Nat.eqb_eq; lia.
      + intros b Hb Eb. pose proof (Hp b Hb Eb) as Hfb.
        assert (Eq : fst b = fst e).
        { pose proof (in_map fst _ _ He) as Me. pose proof (in_map fst _ _ Hb) as Mb.
          destruct Hfe as [Fe|Fe], Hfb as [Fb|Fb]; rewrite Fe, Fb in *; auto.
          - rewrite (HU v w Me Mb) in *. reflexivity.
          - rewrite (HU v w Mb Me) in *. reflexivity. }
        revert He Hb Eq HN. clear. induction hs as [|c hs IH]; [intros []|]. cbn [map].
        intros [->|H1] [->|H2] Eq HN; inversion HN as [|? ? Hx HN']; subst; auto.
        * exfalso. apply Hx. rewrite <- Eq. apply in_map. exact H2.
        * exfalso. apply Hx. rewrite Eq. apply in_map. exact H1.
    - intros N1 N2. rewrite filter_zero; [reflexivity|]. intros e He Ee.
      pose proof (in_map fst _ _ He) as Me. destruct (Hp e He Ee) as [X|X]; rewrite X in Me; auto.
  Qed.
End At.

Lemma in_combine_Forall2 {A B} (P : A -> B -> Prop) l m a b : Forall2 P l m -> In (a, b) (combine l m) -> P a b.
Proof. apply Forall2_in_combine. Qed.

Section Eval.
  Context `{HashOrd}.
  Variables (st : mstate X) (m : model X) (sp : std_prob X) (k' : nat).
  Hypothesis Hh : hist no_self_quotient st.
  Hypothesis Hm : In m (st_models st).
  Hypothesis E : std_problem m (st_k st) = Ok (sp, k').

  (** ** C30 Problem evaluation (nonlinear problems) *)
  Theorem C30_nonlinear :
    class_of (sp_prob sp) = ClNlp \/ class_of (sp_prob sp) = ClMinlp ->
    exists obj cs slots,
      model_std m (st_k st) = Ok ((obj, cs), k') /\ placed (st_k st) m cs sp slots /\
      forall q (x : list R), evolves (base_of (sp_prob sp)) q -> length x = m_nx (base_of (sp_prob sp)) ->
        exists q', minlp_evaluate q (pt x) = Ok q' /\ evaluated sp m slots (at_point sp (pt x)) (m_bufs q').
  Proof.
    intros Hcl. destruct (placed_all st m sp k' (hist_any _ _ Hh) Hm E) as (obj & cs & slots & Em & Hp & _).
    exists obj, cs, slots. split; [exact Em|]. split; [exact Hp|]. intros q x Hq Hx.
    destruct (hist_inv true st Hh) as (S & Hi).
    pose proof (hi_models _ _ _ Hi) as G. rewrite Forall_forall in G. destruct (G m Hm) as (Mi & _ & _). clear G.
    pose proof (hi_world _ _ _ Hi) as HW.
    destruct (std_problem_run true _ S m sp k' HW Mi E) as (obj' & S' & eo & ke & ko & ps & ar & jr & uc & lc & Em' & R & Esp & _).
    rewrite Em in Em'. injection Em' as <- Ecs.
    pose proof (sr_comp _ _ _ _ _ _ _ _ _ _ _ _ _ R) as Ec.
    pose proof (std_components_ok _ _ _ _ Ec) as (_ & Ephi & Eprop & _).
    pose proof (sr_obj _ _ _ _ _ _ _ _ _ _ _ _ _ R) as Eo.
    assert (Hval : forall vs, evaluate vs eo = obj_value m vs).
    { intros vs. unfold obj_value. destruct (md_objective m) as [f|f|]; cbn [obj_exp] in Eo.
      - inversion Eo; subst; reflexivity.
      - exact (neg_n_exact vs f _ _ _ Eo).
      - inversion Eo; subst. reflexivity. }
    destruct (sr_w1 _ _ _ _ _ _ _ _ _ _ _ _ _ R) as (S1 & _ & _ & W1 & Se).
    destruct (sr_w2 _ _ _ _ _ _ _ _ _ _ _ _ _ R) as (S2 & I2 & _ & W2 & _).
    pose proof (sr_world _ _ _ _ _ _ _ _ _ _ _ _ _ R) as W'.
    pose proof (sr_eo _ _ _ _ _ _ _ _ _ _ _ _ _ R) as Seo.
    pose proof (sr_in _ _ _ _ _ _ _ _ _ _ _ _ _ R) as [_ _ Pf Pj Ph _ _].
    pose proof (sr_rows _ _ _ _ _ _ _ _ _ _ _ _ _ R) as [_ _ _ _ _ R6 _].
    pose proof (sr_parts _ _ _ _ _ _ _ _ _ _ _ _ _ R) as HP.
    pose proof (run_vars_nodup _ _ _ _ _ _ _ _ _ _ _ _ _ R) as Hnd.
    assert (Hvin : forall v, In v (problem_vars k' obj (cat ps)) -> S' v /\ is_var v = true).
    { intros v Hv. apply (run_vars_world _ _ _ _ _ _ _ _ _ _ _ _ _ v R Hv). }
    assert (Hcoh : forall v f, In v (problem_vars k' obj (cat ps)) -> S' f -> coh v f).
    { intros v f Hv Sf w [Hw Hsub] Ep. destruct (Hvin v Hv) as [Sv Vv].
      apply (world_ptr_eq true k' S' w v W'); auto. apply (world_sub true k' S' f w W' Sf Hsub). }
    destruct (base_shape k' (md_init m) obj (cat ps)) as (_ & _ & _ & _ & _ & _ & En).
    assert (Hx' : length (pt x) = length (problem_vars k' obj (cat ps))).
    { unfold pt. rewrite map_length, Hx, Esp. exact En. }
    rewrite Esp in Hq. cbn [sp_prob] in Hq.
    destruct (run_evaluate _ _ _ _ _ _ _ _ _ _ _ _ _ _ (pt x) R Hq Hx') as (q' & Eq & Ebf & _).
    exists q'. split; [exact Eq|]. rewrite Ebf.
    assert (Hlin : p_linear obj (cat ps) = false).
    { rewrite Esp in Hcl. cbn [sp_prob] in Hcl. unfold p_problem in Hcl.
      destruct (p_linear obj (cat ps)); [|reflexivity]. destruct (no_int k' obj (cat ps)); destruct Hcl; discriminate. }
    assert (Hat : at_point sp (pt x) = point_vals (problem_vars k' obj (cat ps)) (pt x)) by (rewrite Esp; reflexivity).
    rewrite Hat. unfold bufs_at. rewrite Hlin.
    assert (Hv2i : forall v i, In (v, i) (sp_var2index sp) -> nth_error (problem_vars k' obj (cat ps)) i = Some v).
    { intros v i Hv. rewrite Esp in Hv. cbn [sp_var2index] in Hv. apply enum_in in Hv. exact Hv. }
    set (vars := problem_vars k' obj (cat ps)) in *. set (vs := point_vals vars (pt x)) in *.
    assert (Hreal : forall v, In v vars -> exists r, evaluate vs v = Some r).
    { intros v Hv. apply In_nth_error in Hv as [i Hi'].
      assert (Hlt : (i < length x)%nat).
      { unfold pt in Hx'. rewrite map_length in Hx'. rewrite Hx'. apply nth_error_Some. congruence. }
      exists (nth i x 0%R). transitivity (nth i (pt x) (Some 0%R)).
      - refine (point_eval vars Hnd _ (pt x) i v Hi'). apply Forall_forall. intros w Hw. apply Hvin. exact Hw.
      - exact (map_nth Some x 0%R i). }
    assert (Hfun : forall c r sl, In (c, SFun r sl) (combine (md_constraints m) slots) ->
      exists f, nth_error (cs_f (cat ps)) r = Some f /\ S' f /\ (forall v, evaluate v f = fun_value c sl v) /\
                grad_ok f (jrow r (cs_j (cat ps))) /\
                exists hs, nth_error (cs_h (cat ps)) r = Some hs /\ hess_ok f hs).
    { intros c r sl Hin. pose proof (Forall2_in_combine _ _ _ _ _ (pl_slots _ _ _ _ _ Hp) Hin) as Hs.
      destruct Hs as (_ & _ & f & Ef & Hf). rewrite Ecs in Ef. exists f.
      assert (HS2 : Forall (fun c => S2 (clhs c) /\ S2 (crhs c)) (md_constraints m)).
      { eapply Forall_impl; [|apply mi_cons with (1 := Mi)]. intros c0 []; auto. }
      destruct (parts_fun_ok S2 _ 0 0 ko ps ar jr k' W2 HS2 HP r f Ef) as [A1 A2].
      split; [exact Ef|]. split.
      - rewrite Forall_forall in Pf. apply (Pf f). eapply nth_error_In; eauto.
      - split; [exact Hf|]. split; [exact A1|exact A2]. }
    assert (Hjv : Forall (fun e => In (snd (fst e)) vars) (cs_j (cat ps))).
    { eapply Forall_impl; [|exact Pj]. cbn. intros e [K1 _]. apply (run_vars_in _ _ _ _ _ _ _ _ _ _ _ _ _ _ R). auto. }
    constructor; cbn [b_phi b_gphi b_hphi b_f b_j b_h].
    - rewrite Ephi. apply Hval.
    - intros Hdef v i Hv. apply Hv2i in Hv. pose proof (nth_error_In _ _ Hv) as Hin.
      destruct (Hreal v Hin) as [x0 Ex0]. rewrite <- Hval in Hdef.
      destruct (evaluate vs eo) as [z|] eqn:Ez; [|congruence].
      pose proof (comp_grad_ok ke S1 eo obj ko W1 Se Ec) as [Gn Gg].
      destruct (Gg v vs z x0 Ez (proj2 (Hvin v Hin)) Ex0 (Hcoh v eo Hin Seo)) as (l & Hl & Hcase).
      exists l. split; [|eapply partial_of_ext; [exact Hval|exact Hl]].
      rewrite nth_error_map, Hv. cbn [option_map]. f_equal. unfold lookup.
      set (gl := map (fun ge : nodeX * nodeX => (fst ge, evaluate vs (snd ge))) (sc_gphi obj)).
      assert (Egl : map fst gl = map fst (sc_gphi obj)) by (unfold gl; rewrite map_map; reflexivity).
      assert (Hgk : forall w, In w (map fst (sc_gphi obj)) -> occurs w eo).
      { intros w Hw. apply keys_occur. apply (gphi_keys _ _ _ _ Ec). exact Hw. }
      destruct Hcase as [(d & Hd & El)|[Hnin ->]].
      + assert (Eg : hget ptr_eq v gl = Some (evaluate vs d)); [apply pget_in|rewrite Eg; exact El].
        * rewrite Egl. pose proof (std_components_ok _ _ _ _ Ec) as (_ & _ & _ & Hvk & _). rewrite Hvk.
          eapply pnodup_perm; [apply Permutation_map, Permutation_sym, ord_perm|]. apply keys_nodup.
        * unfold gl. apply in_map_iff. exists (v, d). auto.
      + destruct (hget ptr_eq v gl) as [y|] eqn:Eg; [|reflexivity]. exfalso.
        apply hget_some_in in Eg as (w & Hw & Ep). apply (in_map fst) in Hw. rewrite Egl in Hw. cbn [fst] in Hw.
        apply Hnin. rewrite <- (Hcoh v eo Hin Seo w (Hgk w Hw)); [exact Hw|]. rewrite ptr_eq_sym. exact Ep.
    - intros Hdef v i w j Hv Hw Hji. apply Hv2i in Hv. apply Hv2i in Hw.
      pose proof (nth_error_In _ _ Hv) as Hin. pose proof (nth_error_In _ _ Hw) as Hinw.
      destruct (Hreal v Hin) as [x0 Ex0]. destruct (Hreal w Hinw) as [y0 Ey0]. rewrite <- Hval in Hdef.
      destruct (evaluate vs eo) as [z|] eqn:Ez; [|congruence].
      destruct (comp_hess_ok ke S1 eo obj ko W1 Se Ec v w vs z x0 y0 Ez (proj2 (Hvin v Hin)) (proj2 (Hvin w Hinw))
                  Ex0 Ey0 (Hcoh v eo Hin Seo) (Hcoh w eo Hinw Seo)) as (l & L1 & L2 & Hcase).
      exists l. split; [|split; (eapply second_partial_of_ext; [exact Hval|]); assumption].
      destruct (hess_at vars Hnd (sc_hphi obj) (length vars) vs v i w j Hv Hw Hji (hphi_upairs _ _ _ _ Ec)) as [A1 A2].
      { apply Forall_forall. intros e He. destruct (hphi_keys eo ke obj ko Ec e He) as [K1 K2].
        split; apply (run_vars_in _ _ _ _ _ _ _ _ _ _ _ _ _ _ R); left; apply keys_occur; auto. }
      destruct Hcase as [(d & Hd & El)|(N1 & N2 & ->)].
      + rewrite <- El. exact (A1 d Hd).
      + exact (A2 N1 N2).
    - rewrite map_length, (pl_funs _ _ _ _ _ Hp), seq_length, Ecs. reflexivity.
    - rewrite !map_length. exact R6.
    - intros c r sl Hin. destruct (Hfun c r sl Hin) as (f & Ef & _ & Hf & _). rewrite nth_error_map, Ef. cbn. f_equal. apply Hf.
    - intros c r sl Hin Hdef v i Hv. destruct (Hfun c r sl Hin) as (f & Ef & Sf & Hf & [Gn Gg] & _).
      apply Hv2i in Hv. pose proof (nth_error_In _ _ Hv) as Hvi. destruct (Hreal v Hvi) as [x0 Ex0].
      rewrite <- Hf in Hdef. destruct (evaluate vs f) as [z|] eqn:Ez; [|congruence].
      destruct (Gg v vs z x0 Ez (proj2 (Hvin v Hvi)) Ex0 (Hcoh v f Hvi Sf)) as (l & Hl & Hcase).
      exists l. split; [|eapply partial_of_ext; [exact Hf|exact Hl]]. f_equal.
      destruct (jac_at vars Hnd (cs_j (cat ps)) (length (cs_f (cat ps))) (length vars)
                       (repeat (@n0 X _) (length (cs_j (cat ps)))) vs r v i Hv Hjv Gn) as [A1 A2].
      destruct Hcase as [(d & Hd & El)|(N1 & ->)].
      + rewrite <- El. exact (A1 d Hd).
      + exact (A2 N1).
    - intros c r sl Hin Hdef. destruct (Hfun c r sl Hin) as (f & Ef & Sf & Hf & _ & hs & Ehs & Gh).
      rewrite nth_error_map, Ehs. cbn [option_map]. eexists. split; [reflexivity|].
      intros v i w j Hv Hw Hji. apply Hv2i in Hv. apply Hv2i in Hw.
      pose proof (nth_error_In _ _ Hv) as Hvi. pose proof (nth_error_In _ _ Hw) as Hwi.
      destruct (Hreal v Hvi) as [x0 Ex0]. destruct (Hreal w Hwi) as [y0 Ey0].
      rewrite <- Hf in Hdef. destruct (evaluate vs f) as [z|] eqn:Ez; [|congruence].
      destruct (Gh v w vs z x0 y0 Ez (proj2 (Hvin v Hvi)) (proj2 (Hvin w Hwi)) Ex0 Ey0 (Hcoh v f Hvi Sf) (Hcoh w f Hwi Sf))
        as (l & L1 & L2 & Hcase).
      exists l. split; [|split; (eapply second_partial_of_ext; [exact Hf|]); assumption].
      pose proof (nth_error_In _ _ Ehs) as Hhs.
      pose proof (parts_upairs _ _ _ _ _ _ _ _ HP) as HU. rewrite Forall_forall in HU, Ph.
      destruct (hess_at vars Hnd hs (length vars) vs v i w j Hv Hw Hji (HU hs Hhs)) as [A1 A2].
      { eapply Forall_impl; [|exact (Ph hs Hhs)]. cbn. intros e (K1 & K2 & _).
        split; apply (run_vars_in _ _ _ _ _ _ _ _ _ _ _ _ _ _ R); right; auto. }
      destruct Hcase as [(d & Hd & El)|(N1 & N2 & ->)].
      + rewrite <- El. exact (A1 d Hd).
      + exact (A2 N1 N2).
  Qed.
End Eval.

(** ** C30 Problem evaluation (linear problems) *)
Theorem C30_linear `{HashOrd} (st : mstate X) (m : model X) sp k' q (x : list R) :
  hist any_op st -> In m (st_models st) -> std_problem m (st_k st) = Ok (sp, k') ->
  class_of (sp_prob sp) = ClLp \/ class_of (sp_prob sp) = ClMilp ->
  evolves (base_of (sp_prob sp)) q -> length x = m_nx (base_of (sp_prob sp)) ->
  exists q', minlp_evaluate q (pt x) = Ok q' /\
    b_f (m_bufs q') = [] /\ b_h (m_bufs q') = [] /\ entries (b_j (m_bufs q')) = [] /\
    (obj_value m (at_point sp (pt x)) <> None ->
     gradient_at (sp_var2index sp) (obj_value m) (at_point sp (pt x)) (nth_error (b_gphi (m_bufs q'))) /\
     hessian_at (sp_var2index sp) (obj_value m) (at_point sp (pt x)) (b_hphi (m_bufs q'))).
Proof.
  intros Hh Hm E Hcl Hq Hx.
  destruct (hist_run st m sp k' Hh Hm E) as (S & obj & S' & eo & ke & ko & ps & ar & jr & uc & lc & Hi & Mi & HW & Em & R & Esp & _).
  pose proof (sr_comp _ _ _ _ _ _ _ _ _ _ _ _ _ R) as Ec.
  pose proof (std_components_ok _ _ _ _ Ec) as (_ & Ephi & Eprop & _).
  pose proof (sr_obj _ _ _ _ _ _ _ _ _ _ _ _ _ R) as Eo.
  assert (Hval : forall vs, evaluate vs eo = obj_value m vs).
  { intros vs. unfold obj_value. destruct (md_objective m) as [f|f|]; cbn [obj_exp] in Eo.
    - inversion Eo; subst; reflexivity.
    - exact (neg_n_exact vs f _ _ _ Eo).
    - inversion Eo; subst. reflexivity. }
  pose proof (sr_world _ _ _ _ _ _ _ _ _ _ _ _ _ R) as W'.
  pose proof (sr_eo _ _ _ _ _ _ _ _ _ _ _ _ _ R) as Seo.
  pose proof (run_vars_nodup _ _ _ _ _ _ _ _ _ _ _ _ _ R) as Hnd.
  assert (Hvin : forall v, In v (problem_vars k' obj (cat ps)) -> S' v /\ is_var v = true).
  { intros v Hv. apply (run_vars_world _ _ _ _ _ _ _ _ _ _ _ _ _ v R Hv). }
  destruct (base_shape k' (md_init m) obj (cat ps)) as (_ & _ & _ & _ & _ & _ & En).
  assert (Hx' : length (pt x) = length (problem_vars k' obj (cat ps))).
  { unfold pt. rewrite map_length, Hx, Esp. exact En. }
  rewrite Esp in Hq. cbn [sp_prob] in Hq.
  destruct (run_evaluate _ _ _ _ _ _ _ _ _ _ _ _ _ _ (pt x) R Hq Hx') as (q' & Eq & Ebf & _).
  exists q'. split; [exact Eq|]. rewrite Ebf.
  assert (Hlin : p_linear obj (cat ps) = true).
  { rewrite Esp in Hcl. cbn [sp_prob] in Hcl. unfold p_problem in Hcl.
    destruct (p_linear obj (cat ps)); [reflexivity|]. destruct (no_int k' obj (cat ps)); destruct Hcl; discriminate. }
  unfold bufs_at. rewrite Hlin. cbn [b_f b_h b_j b_gphi b_hphi].
  split; [reflexivity|]. split; [reflexivity|]. split; [reflexivity|].
  unfold p_linear in Hlin. apply andb_true_iff in Hlin as [Ha _]. rewrite Eprop in Ha.
  assert (Hat : at_point sp (pt x) = point_vals (problem_vars k' obj (cat ps)) (pt x)) by (rewrite Esp; reflexivity).
  rewrite Hat.
  assert (Hv2i : forall v i, In (v, i) (sp_var2index sp) -> nth_error (problem_vars k' obj (cat ps)) i = Some v).
  { intros v i Hv. rewrite Esp in Hv. cbn [sp_var2index] in Hv. apply enum_in in Hv. exact Hv. }
  set (vars := problem_vars k' obj (cat ps)) in *. set (vs := point_vals vars (pt x)) in *.
  assert (Hreal : forall v, In v vars -> exists r, evaluate vs v = Some r).
  { intros v Hv. apply In_nth_error in Hv as [i Hi']. exists (nth i x 0%R). transitivity (nth i (pt x) (Some 0%R)).
    - refine (point_eval vars Hnd _ (pt x) i v Hi'). apply Forall_forall. intros w Hw. apply Hvin. exact Hw.
    - exact (map_nth Some x 0%R i). }
  intros Hdef. rewrite <- Hval in Hdef. destruct (evaluate vs eo) as [z|] eqn:Ez; [|congruence]. split.
  - intros v i Hv. apply Hv2i in Hv. pose proof (nth_error_In _ _ Hv) as Hin. destruct (Hreal v Hin) as [x0 Ex0].
    exists (coef v (p_a (std_properties eo))). split.
    + unfold p_cvec. fold vars. rewrite nth_error_map, Hv. cbn [option_map]. f_equal. unfold lookup. rewrite Eprop.
      destruct (hget ptr_eq v (p_a (std_properties eo))) as [c|] eqn:Eg.
      * apply hget_some_in in Eg as (w & Hw & Ep).
        assert (Sw : S' w /\ is_var w = true).
        { apply Hvin. apply (run_vars_in _ _ _ _ _ _ _ _ _ _ _ _ _ _ R). left. apply keys_occur.
          apply (in_map fst) in Hw. exact Hw. }
        destruct (Hvin v Hin) as [Sv Vv]. destruct Sw as [Sw Vw].
        assert (Evw : v = w) by (apply (world_ptr_eq false k' S' v w W'); auto). subst w.
        rewrite (coef_in v c); [|apply keys_nodup|exact Hw].
        rewrite (affine_value false k' S' vs eo W' Seo Ha) in Ez.
        destruct (lin vs (p_a (std_properties eo))) as [zl|] eqn:El; [|discriminate].
        unfold lin in El. apply xsum_some in El. rewrite Forall_forall in El.
        destruct (El (x2 Rmult c (evaluate vs v))) as [r Hr]; [apply in_map_iff; exists (v, c); auto|].
        destruct c; [reflexivity|discriminate].
      * rewrite coef_absent; [reflexivity|]. intros w Hw. rewrite ptr_eq_sym. apply not_true_is_false. intros Ep.
        apply hget_none in Eg. assert (existsb (ptr_eq v) (map fst (p_a (std_properties eo))) = true); [|congruence].
        apply existsb_exists. eauto.
    + eapply partial_of_ext; [exact Hval|]. exact (affine_partial false k' S' vs eo v x0 z W' Seo Ha (proj2 (Hvin v Hin)) Ex0 Ez).
  - intros v i w j Hv Hw Hji. apply Hv2i in Hv. apply Hv2i in Hw.
    pose proof (nth_error_In _ _ Hv) as Hin. pose proof (nth_error_In _ _ Hw) as Hinw.
    destruct (Hreal v Hin) as [x0 Ex0]. destruct (Hreal w Hinw) as [y0 Ey0].
    exists 0%R. split; [reflexivity|].
    split; (eapply second_partial_of_ext; [exact Hval|]).
    + exact (affine_second false k' S' vs eo v w x0 y0 z W' Seo Ha (proj2 (Hvin v Hin)) (proj2 (Hvin w Hinw)) Ex0 Ey0 Ez).
    + exact (affine_second false k' S' vs eo w v y0 x0 z W' Seo Ha (proj2 (Hvin w Hinw)) (proj2 (Hvin v Hin)) Ey0 Ex0 Ez).
Qed.

(** ** C30 What was called before does not matter (any arithmetic) *)
Theorem C30_history {T} `{Num T} `{HashOrd} (st : mstate T) m sp k' q1 q2 x :
  hist any_op st -> In m (st_models st) -> std_problem m (st_k st) = Ok (sp, k') ->
  evolves (base_of (sp_prob sp)) q1 -> evolves (base_of (sp_prob sp)) q2 -> length x = m_nx (base_of (sp_prob sp)) ->
  exists q1' q2', minlp_evaluate q1 x = Ok q1' /\ minlp_evaluate q2 x = Ok q2' /\ m_bufs q1' = m_bufs q2'.
Proof.
  intros Hh Hm E Hq1 Hq2 Hx.
  destruct (hist_run st m sp k' Hh Hm E) as (S & obj & S' & eo & ke & ko & ps & ar & jr & uc & lc & Hi & Mi & HW & Em & R & Esp & _).
  destruct (base_shape k' (md_init m) obj (cat ps)) as (_ & _ & _ & _ & _ & _ & En).
  rewrite Esp in *. cbn [sp_prob] in *. rewrite En in Hx.
  destruct (run_evaluate _ _ _ _ _ _ _ _ _ _ _ _ _ _ x R Hq1 Hx) as (q1' & E1 & B1 & _).
  destruct (run_evaluate _ _ _ _ _ _ _ _ _ _ _ _ _ _ x R Hq2 Hx) as (q2' & E2 & B2 & _).
  exists q1', q2'. split; [exact E1|]. split; [exact E2|]. congruence.
Qed.

(** ** The hypotheses are met: the model of ModelExample.v is nonlinear and uses
    no quotient *)
From Verif Require Import ExprExtra Properties_Diff SlotProofs ModelExample.
Lemma mrun_hist_nsq {T} `{Num T} `{HashOrd} cs (st st' : mstate T) :
  hist no_self_quotient st -> Forall (fun c => match c with CExpr (ODivNN _ _) => False | _ => True end) cs ->
  mrun cs st = Some st' -> hist no_self_quotient st'.
Proof.
  intros Hs HF; revert st Hs; induction HF as [|c cs Hc HF IH]; intros st Hs E; cbn in E; [congruence|].
  destruct (mexec st c) as [st1|] eqn:E1; [|discriminate]. eapply IH; [|exact E].
  eapply hist_step; [exact Hs| |exact E1]. destruct c as [o| | | | | | | | | | |]; try exact I.
  destruct o; try exact I. destruct Hc.
Qed.
Lemma ex_hist_nsq : @hist X _ no_self_quotient est.
Proof.
  assert (H1 : @hist X _ no_self_quotient (mk_mstate 4 [cx; cy; cm; cs_] [] [])).
  { eapply (@hist_step X _ _ ord_id (mk_mstate 3 [cx; cy; cm] [] []) (CExpr (OAddNN 0 1))); [|exact I|].
    2:{ change (new_node (mk_mstate 3 [cx; cy; cm] [] []) (add_nn cx cy 3) = Some (mk_mstate 4 [cx; cy; cm; cs_] [] [])).
        rewrite ex_add. reflexivity. }
    eapply (@hist_step X _ _ ord_id (mk_mstate 2 [cx; cy] [] []) (CExpr (OMulNN 0 1))); [|exact I|reflexivity].
    eapply (@hist_step X _ _ ord_id (mk_mstate 1 [cx] [] []) (CExpr (OVar "y"%string VarContinuous))); [|exact I|reflexivity].
    eapply (@hist_step X _ _ ord_id mstart (CExpr (OVar "x"%string VarContinuous))); [constructor|exact I|reflexivity]. }
  apply (@mrun_hist_nsq X _ ord_id [CCmpNS 0 GreaterEqual (Some 1%R) "c1"%string; CCmpNS 3 Equal (Some 3%R) "c2"%string;
                    CCmpNS 2 LessEqual (Some 0%R) "c3"%string; CNewModel; CSetObj 0 Minimise 2;
                    CAddConstrs 0 [0; 1; 2]; CInit 0 [(0, Some 2%R)]] _ _ H1); [|reflexivity].
  repeat constructor.
Qed.
Example C30_example : exists sp k' x, @hist X _ no_self_quotient est /\ In em (st_models est) /\
  @std_problem X _ ord_id em (st_k est) = Ok (sp, k') /\
  (class_of (sp_prob sp) = ClNlp \/ class_of (sp_prob sp) = ClMinlp) /\ length x = m_nx (base_of (sp_prob sp)) /\
  obj_value em (at_point sp (pt x)) <> None /\ (1 <= length (b_f (m_bufs (base_of (sp_prob sp)))))%nat.
Proof.
  destruct ex_std as (obj & cs & k' & Em).
  destruct (@hist_inv X _ true est ex_hist_nsq) as (S & Hi).
  pose proof (hi_models _ _ _ Hi) as G. inversion G as [|? ? (Mi & _) _]; subst. clear G.
  pose proof (hi_world _ _ _ Hi) as HW. cbn [st_k est] in HW.
  destruct (@std_problem_ok X _ ord_id true 10 S em obj cs k' HW Mi Em) as (uc & lc & Esp & _).
  set (sp := mk_std_prob (@p_problem X _ ord_id k' (md_init em) obj cs) (v2i_of (@problem_vars X ord_id k' obj cs)) (enum (cs_ca cs)) (enum (cs_cj cs)) uc lc) in Esp.
  exists sp, k', (repeat 0%R (length (@problem_vars X ord_id k' obj cs))).
  assert (Hin : In em (st_models est)) by (cbn; auto).
  destruct (@model_std_run X _ ord_id true 10 S em obj cs k' HW Mi Em) as (S' & eo & ke & ko & ps & ar & jr & R & Ecs).
  pose proof (sr_obj _ _ _ _ _ _ _ _ _ _ _ _ _ R) as Eo. cbn in Eo. injection Eo as <- <-.
  pose proof (std_components_ok _ _ _ _ (sr_comp _ _ _ _ _ _ _ _ _ _ _ _ _ R)) as (_ & _ & Eprop & _).
  assert (Hlin : p_linear obj cs = false) by (unfold p_linear; rewrite Eprop; reflexivity).
  destruct (@base_shape X _ ord_id k' (md_init em) obj cs) as (_ & _ & _ & _ & _ & _ & En).
  split; [exact ex_hist_nsq|]. split; [exact Hin|]. split; [exact Esp|].
  assert (Hcl : class_of (sp_prob sp) = ClNlp \/ class_of (sp_prob sp) = ClMinlp).
  { unfold sp. cbn [sp_prob]. unfold p_problem. rewrite Hlin. destruct (@no_int X ord_id k' obj cs); cbn; auto. }
  split; [exact Hcl|]. split; [rewrite repeat_length; symmetry; exact En|]. split.
  - assert (HA : forall v, model_var em v -> exists r, evaluate (at_point sp (pt (repeat 0%R (length (@problem_vars X ord_id k' obj cs))))) v = Some r).
    { intros v Hv. destruct (@C24_bijection X _ ord_id est em sp k' ex_hist Hin Esp x_nm1) as (_ & _ & HA & _).
      apply HA in Hv. apply in_map_iff in Hv as ([v' i] & <- & Hv). cbn [fst].
      destruct (@value_real ord_id est em sp k' ex_hist Hin Esp (repeat 0%R (length (@problem_vars X ord_id k' obj cs))) v' i) as (r & _ & Er); eauto.
      rewrite repeat_length. symmetry. exact En. }
    destruct (HA cx) as [r1 E1]; [left; split; [reflexivity|eapply sub_arg; [|constructor]; cbn; auto]|].
    destruct (HA cy) as [r2 E2]; [left; split; [reflexivity|eapply sub_arg; [|constructor]; cbn; auto]|].
    unfold obj_value. cbn [md_objective em cm].
    match goal with |- context [evaluate ?vs ?e] =>
      replace (evaluate vs e) with (x2 Rmult (evaluate vs cx) (evaluate vs cy)) by reflexivity end.
    rewrite E1, E2. discriminate.
  - destruct (@base_bufs X _ ord_id k' (md_init em) obj cs) as (Eb & _). unfold sp. cbn [sp_prob]. rewrite Eb, Hlin.
    cbn [nl_bufs b_f]. rewrite repeat_length, Ecs.
    pose proof (sr_parts _ _ _ _ _ _ _ _ _ _ _ _ _ R) as HP. cbn [md_constraints em] in HP.
    inversion HP as [|? ? ? ? ? p1 ? ? ? ? ? ? ? P1 HP1]; subst. inversion HP1 as [|? ? ? ? ? p2 ? ? ? ? ? ? ? P2 HP2]; subst.
    inversion HP2 as [|? ? ? ? ? p3 ? ? ? ? ? ? ? P3 HP3]; subst. inversion HP3; subst.
    change (cat [p1; p2; p3]) with (cstd_app p1 (cstd_app p2 (cstd_app p3 cstd_new))). unfold cstd_app. cbn [cs_f].
    rewrite !app_length. enough (1 <= length (cs_f p3))%nat by lia.
    apply constr_std_inv in P3 as (e & ke3 & sc & ks & Es & _ & Hc).
    match type of Es with sub_nn _ _ ?kk = _ =>
      assert (Es' : sub_nn (clhs ec3) (crhs ec3) kk = Ok (cm, Datatypes.S kk)) end.
    { unfold sub_nn, bind. cbn [clhs crhs ec3 mul_sn is_constant]. rewrite orb_true_r. unfold mk_const.
      change (@nmul X _ nm1 (Some 0%R)) with (Some (- (1) * 0)%R).
      unfold add_nn. cbn [is_constant_with_value cm]. replace (@neqb X _ (Some (- (1) * 0)%R) n0) with true by (symmetry; apply xeqb_t; lra). reflexivity. }
    rewrite Es in Es'. injection Es' as -> _.
    destruct Hc as [? ? Ha|Ha|? Ha|Ha|? ? ? ? Ha]; try discriminate Ha; cbn [cs_f length]; lia.
Qed.
