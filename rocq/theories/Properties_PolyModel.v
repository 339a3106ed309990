(** Property C72: problems of integer polynomials are evaluated exactly in binary64. *)
From Verif Require Import Base Num Node NodeInd NodeDiff NodeStd Constraint Matrix Problem ModelStd Model
     ExprSpec World MapProofs StdPropProofs EvalProofs DiffSpec DiffProofs PanicProofs GradProofs HessProofs CompProofs
     OccProofs ConstrSpec ConstrProofs ConstrEquiv PartsProofs
     MatSpec MatrixProofs ProblemProofs BuildProofs BuildMain ModelSpec PointProofs EvalRun StdFacts JacProofs EvalSpec
     Api ApiProofs ModelApi StdMain HistProofs Properties_Constr Properties_Std Properties_Feas Properties_Eval Properties_Sparse
     FmtProofs ExactSpec ExactSim ExactF Properties_Exact PolySpec DegProofs PolyProofs PolyComp PolyModelSpec PolyHist PolyParts.
From Coq Require Import Reals Lra Floats.SpecFloat NArith.
Local Open Scope R_scope.

Lemma entries_any {T A} (l : list A) (r c : A -> nat) (d : A -> T) n m dd :
  entries (with_data (mk_coo n m (map r l) (map c l) dd) (map d l)) = map (fun a => (r a, c a, d a)) l.
Proof.
  unfold entries, with_data. cbn [coo_ri coo_ci coo_data]. induction l as [|a l IH]; [reflexivity|].
  cbn [map combine]. rewrite IH. reflexivity.
Qed.

Section At.
  Variables fsin fcos : F -> F.
  Notation NF := (NumF fsin fcos).
  Local Instance num_f : Num F := NF.
  Variable vars : list (node F).
  Hypothesis Hnd : nodupk ptr_eq vars.

  Lemma jac_stored (cs : list (nat * node F * node F)) n m dd (vs : vals F) r v i :
    nth_error vars i = Some v -> Forall (fun e => In (snd (fst e)) vars) cs -> NoDup (map fst (jrow r cs)) ->
    let mat := with_data (mk_coo n m (map (fun e => fst (fst e)) cs) (map (fun e => ix vars (snd (fst e))) cs) dd)
                         (map (fun e => @evaluate F NF vs (snd e)) cs) in
    (forall d, In (v, d) (jrow r cs) -> stored mat r i = [@evaluate F NF vs d]) /\
    (~ In v (map fst (jrow r cs)) -> stored mat r i = []).
  Proof.
    intros Hi HF HN mat.
    assert (E : stored mat r i = map (fun e => @evaluate F NF vs (snd e)) (filter (fun e => (ix vars (fst e) =? i)%nat) (jrow r cs))).
    { unfold stored, mat. rewrite entries_any. clear -HF. unfold jrow.
      induction HF as [|e cs He HF IH]; [reflexivity|]. cbn [map filter fst snd].
      destruct (fst (fst e) =? r)%nat; cbn [andb map filter fst snd]; [|exact IH].
      destruct (ix vars (snd (fst e)) =? i)%nat; cbn [map fst snd]; [f_equal|]; exact IH. }
    assert (Hv : forall e, In e (jrow r cs) -> (ix vars (fst e) =? i)%nat = true -> fst e = v).
    { intros e He Ee. apply Nat.eqb_eq in Ee. unfold jrow in He. apply in_map_iff in He as (e0 & <- & He). cbn [fst] in *.
      apply filter_In in He as [He _]. rewrite Forall_forall in HF. pose proof (ix_nth vars Hnd _ (HF _ He)) as Hn. congruence. }
    assert (Hiv : (ix vars v =? i)%nat = true) by (apply Nat.eqb_eq; apply (nth_ix vars Hnd); exact Hi).
    rewrite E. split.
    - intros d Hd. rewrite (filter_one _ _ (v, d)); [reflexivity| | | |].
      + apply NoDup_fst. exact HN.
      + exact Hd.
      + exact Hiv.
      + intros [w d'] Hb Eb. pose proof (Hv _ Hb Eb) as Ew. cbn [fst] in Ew. subst w.
        revert Hd Hb HN. clear. induction (jrow r cs) as [|[a b] l IH]; [intros []|]. cbn [map fst].
        intros [E1|H1] [E2|H2] HN; inversion HN as [|? ? Hx HN']; subst.
        * congruence.
        * injection E1 as -> ->. exfalso. apply Hx. apply in_map_iff. exists (v, d'). auto.
        * injection E2 as -> ->. exfalso. apply Hx. apply in_map_iff. exists (v, d). auto.
        * auto.
    - intros Hn. rewrite filter_zero; [reflexivity|]. intros e He Ee. apply Hn. rewrite <- (Hv e He Ee). apply in_map. exact He.
  Qed.

  Lemma hess_stored (hs : list (node F * node F * node F)) n (vs : vals F) v i w j :
    nth_error vars i = Some v -> nth_error vars j = Some w -> (j <= i)%nat -> upairs hs ->
    Forall (fun e => In (fst (fst e)) vars /\ In (snd (fst e)) vars) hs ->
    let mat := with_data (hess_of vars n hs) (map (fun e => @evaluate F NF vs (snd e)) hs) in
    (forall d, In (v, w, d) hs \/ In (w, v, d) hs -> stored mat i j = [@evaluate F NF vs d]) /\
    (~ In (v, w) (map fst hs) -> ~ In (w, v) (map fst hs) -> stored mat i j = []).
  Proof.
    intros Hi Hj Hji [HN HU] HF mat.
    pose proof (nth_ix vars Hnd _ _ Hi) as Iv. pose proof (nth_ix vars Hnd _ _ Hj) as Iw.
    set (p := fun e : node F * node F * node F => ((Nat.max (ix vars (fst (fst e))) (ix vars (snd (fst e))) =? i) &&
                       (Nat.min (ix vars (fst (fst e))) (ix vars (snd (fst e))) =? j))%nat).
    assert (E : stored mat i j = map (fun e => @evaluate F NF vs (snd e)) (filter p hs)).
    { unfold stored, mat, hess_of. rewrite entries_any. clear. unfold p.
      induction hs as [|e hs IH]; [reflexivity|]. cbn [map filter fst snd].
      match goal with |- context [if ?b then _ else _] => destruct b end; cbn [map snd]; [f_equal|]; exact IH. }
    assert (Hp : forall e, In e hs -> p e = true -> fst e = (v, w) \/ fst e = (w, v)).
    { intros [[a b] d] He Ee. unfold p in Ee. cbn [fst snd] in *. apply andb_true_iff in Ee as [E1 E2].
      apply Nat.eqb_eq in E1. apply Nat.eqb_eq in E2. rewrite Forall_forall in HF. destruct (HF _ He) as [Fa Fb]. cbn [fst snd] in *.
      pose proof (ix_nth vars Hnd a Fa) as Na. pose proof (ix_nth vars Hnd b Fb) as Nb.
      assert (Hc : (ix vars a = i /\ ix vars b = j) \/ (ix vars a = j /\ ix vars b = i)) by lia.
      destruct Hc as [[Ea Eb]|[Ea Eb]]; rewrite Ea in Na; rewrite Eb in Nb; [left|right]; congruence. }
    rewrite E. split.
    - intros d Hd.
      assert (G : exists e, In e hs /\ snd e = d /\ (fst e = (v, w) \/ fst e = (w, v))) by (destruct Hd; eauto).
      destruct G as (e & He & <- & Hfe). clear Hd.
      rewrite (filter_one _ _ e); [reflexivity| | | |].
      + apply NoDup_fst. exact HN.
      + exact He.
      + unfold p. destruct Hfe as [-> | ->]; cbn [fst snd]; rewrite Iv, Iw; apply andb_true_iff; split; apply Nat.eqb_eq; lia.
      + intros b Hb Eb. pose proof (Hp b Hb Eb) as Hfb.
        assert (Eq : fst b = fst e).
        { pose proof (in_map fst _ _ He) as Me. pose proof (in_map fst _ _ Hb) as Mb.
          destruct Hfe as [Fe|Fe], Hfb as [Fb|Fb]; rewrite Fe, Fb in *; auto.
          - rewrite (HU v w Me Mb) in *. reflexivity.
          - rewrite (HU v w Mb Me) in *. reflexivity. }
        revert He Hb Eq HN. clear. induction hs as [|c hs IH]; [intros []|]. cbn [map].
        intros [->|H1] [->|H2] Eq HN; inversion HN as [|? ? Hx HN']; subst; auto.
        * exfalso. apply Hx. rewrite <- Eq. apply in_map. exact H2.
        * exfalso. apply Hx. rewrite Eq. apply in_map. exact H1.
    - intros N1 N2. rewrite filter_zero; [reflexivity|]. intros e He Ee.
      pose proof (in_map fst _ _ He) as Me. destruct (Hp e He Ee) as [Y|Y]; rewrite Y in Me; auto.
  Qed.
End At.

Section PolyModel.
  Variables fsin fcos : F -> F.
  Notation NF := (NumF fsin fcos).
  Local Instance num_f' : Num F := NF.
  Context `{HashOrd}.
  Variables (V : N) (st : mstate F) (ps : list ipoly) (m : model F).
  Hypothesis Hh : @poly_hist NF V st ps.
  Hypothesis Hm : In m (st_models st).

  (** Every side and objective of such a model has a polynomial. *)
  Theorem C72_polynomials :
    (exists p, obj_poly st ps (md_objective m) p /\ (q_size p <= exact_limit)%N) /\
    Forall (fun c => exists a b, has_poly st ps (clhs c) a /\ has_poly st ps (crhs c) b) (md_constraints m).
  Proof.
    destruct (poly_cinv fsin fcos V st ps Hh) as [_ [_ _ CM]]. rewrite Forall_forall in CM. destruct (CM m Hm) as [(p & Ho) Hc _]. split.
    - exists p. split; [exact Ho|]. destruct (md_objective m) as [f|f|]; cbn [obj_poly] in Ho.
      + exact (bf_lim _ _ _ _ (has_bf fsin fcos V st ps f p Hh Ho)).
      + destruct Ho as (p' & Ho & ->). exact (bf_lim _ _ _ _ (has_bf fsin fcos V st ps f p' Hh Ho)).
      + rewrite Ho. vm_compute. discriminate.
    - eapply Forall_impl; [|exact Hc]. intros c [(a & Ha) (b & Hb)]. exists a, b. auto.
  Qed.

  Variables (sp : std_prob F) (k' : nat).
  Hypothesis E : @std_problem F NF _ m (st_k st) = Ok (sp, k').
  Hypothesis Hcl : class_of (sp_prob sp) = ClNlp \/ class_of (sp_prob sp) = ClMinlp.

  (** ** C72 Evaluating problems of integer polynomials is exact *)
  Theorem C72_exact q (x : list F) (r : nat -> Z) :
    evolves (base_of (sp_prob sp)) q -> integer_point V sp x r ->
    exists q', @minlp_evaluate F q x = Ok q' /\
      (forall p, obj_poly st ps (md_objective m) p ->
         exactly_at sp p r (b_phi (m_bufs q')) (fun i Q => exists y l, nth_error (b_gphi (m_bufs q')) i = Some y /\ is_exactly y l /\ Q l) (b_hphi (m_bufs q'))) /\
      map fst (sp_jcons sp) = seq 0 (length (b_f (m_bufs q'))) /\
      forall i c, In (i, c) (sp_jcons sp) -> In c (md_constraints m) /\
        exists sl y h, match sl with None => ckd c = Equal | Some s => ckd c <> Equal /\ In s (map fst (sp_var2index sp)) /\ (st_k st <= nid s)%nat end /\
          nth_error (b_f (m_bufs q')) i = Some y /\ nth_error (b_h (m_bufs q')) i = Some h /\
          forall p, con_poly V st ps c sl p -> (q_size p <= exact_limit)%N ->
            exactly_at sp p r y (fun j => holds_entry (b_j (m_bufs q')) i j) h.
  Proof.
    intros Hq [Hx Hr].
    destruct (poly_cinv fsin fcos V st ps Hh) as [Hns _].
    destruct (hist_inv true st Hns) as (S & Hi).
    pose proof (hi_models _ _ _ Hi) as G. rewrite Forall_forall in G. destruct (G m Hm) as (Mi & _ & _). clear G.
    pose proof (hi_world _ _ _ Hi) as HW.
    destruct (std_problem_run true _ S m sp k' HW Mi E) as (obj & S' & eo & ke & ko & pp & ar & jr & uc & lc & Em & R & Esp & _).
    pose proof (sr_comp _ _ _ _ _ _ _ _ _ _ _ _ _ R) as Ec.
    pose proof (std_components_ok _ _ _ _ Ec) as (_ & Ephi & Eprop & _).
    pose proof (sr_obj _ _ _ _ _ _ _ _ _ _ _ _ _ R) as Eo.
    destruct (sr_w1 _ _ _ _ _ _ _ _ _ _ _ _ _ R) as (S1 & _ & _ & W1 & Se).
    destruct (sr_w2 _ _ _ _ _ _ _ _ _ _ _ _ _ R) as (S2 & I2 & _ & W2 & _).
    pose proof (sr_world _ _ _ _ _ _ _ _ _ _ _ _ _ R) as W'.
    pose proof (sr_eo _ _ _ _ _ _ _ _ _ _ _ _ _ R) as Seo.
    pose proof (sr_in _ _ _ _ _ _ _ _ _ _ _ _ _ R) as [_ _ Pf Pj Ph _ _].
    pose proof (sr_rows _ _ _ _ _ _ _ _ _ _ _ _ _ R) as [_ _ _ _ R5 R6 _].
    pose proof (sr_parts _ _ _ _ _ _ _ _ _ _ _ _ _ R) as HP.
    pose proof (sr_le _ _ _ _ _ _ _ _ _ _ _ _ _ R) as (L1 & L2 & L3).
    pose proof (run_vars_nodup _ _ _ _ _ _ _ _ _ _ _ _ _ R) as Hnd.
    assert (Hvin : forall v, In v (problem_vars k' obj (cat pp)) -> S' v /\ is_var v = true).
    { intros v Hv. apply (run_vars_world _ _ _ _ _ _ _ _ _ _ _ _ _ v R Hv). }
    assert (Hknown : forall v f, In v (problem_vars k' obj (cat pp)) -> S' f -> known v f).
    { intros v f Hv Sf. destruct (Hvin v Hv) as [Sv Vv]. pose proof (keys_are_vars true k' S' f W' Sf) as [_ Hk].
      destruct (existsb (fun u => ptr_eq u v) (map fst (p_a (std_properties f)))) eqn:Ex.
      - apply existsb_exists in Ex as (u & Hu & Eu). apply Hk in Hu. left.
        rewrite <- (world_ptr_eq true k' S' u v W'); [exact Hu|exact (world_sub true k' S' f u W' Sf (proj2 Hu))|exact Sv|exact Eu].
      - right. split; [exact Vv|]. intros u Hu. apply not_true_is_false. intros Eu. rewrite <- not_true_iff_false in Ex. apply Ex.
        apply existsb_exists. exists u. split; [apply Hk; exact Hu|exact Eu]. }
    destruct (base_shape k' (md_init m) obj (cat pp)) as (_ & _ & _ & _ & _ & _ & En).
    assert (Hx' : length x = length (problem_vars k' obj (cat pp))) by (rewrite Hx, Esp; exact En).
    rewrite Esp in Hq. cbn [sp_prob] in Hq.
    destruct (run_evaluate _ _ _ _ _ _ _ _ _ _ _ _ _ _ x R Hq Hx') as (q' & Eq & Ebf & _).
    exists q'. split; [exact Eq|]. rewrite Ebf.
    assert (Hlin : p_linear obj (cat pp) = false).
    { rewrite Esp in Hcl. cbn [sp_prob] in Hcl. unfold p_problem in Hcl.
      destruct (p_linear obj (cat pp)); [|reflexivity]. destruct (no_int k' obj (cat pp)); destruct Hcl; discriminate. }
    unfold bufs_at. rewrite Hlin.
    assert (Hv2i : forall v i, In (v, i) (sp_var2index sp) <-> nth_error (problem_vars k' obj (cat pp)) i = Some v).
    { intros v i. rewrite Esp. cbn [sp_var2index]. apply enum_in. }
    set (vars := problem_vars k' obj (cat pp)) in *. set (vs := point_vals vars x) in *.
    assert (Hstand : forall f, (forall v, occurs v f -> In v vars) -> stand_for V r vs f).
    { intros f Hf v Ho. pose proof (Hf v Ho) as Hv. apply In_nth_error in Hv as [i Hi']. destruct (Hr v i (proj2 (Hv2i v i) Hi')) as (y & Ey & Hy & Hle).
      exists y. split; [|auto]. apply pget_in; [unfold vs; rewrite point_keys; exact Hnd|]. unfold vs, point_vals. apply in_map_iff. exists (v, i). split; [|apply enum_in; exact Hi'].
      cbn [fst snd]. f_equal. apply nth_error_nth. exact Ey. }
    assert (Hobj : forall v, occurs v eo -> In v vars) by (intros v Hv; apply (run_vars_in _ _ _ _ _ _ _ _ _ _ _ _ _ _ R); left; exact Hv).
    assert (Hfun : forall f v, In f (cs_f (cat pp)) -> occurs v f -> In v vars).
    { intros f v Hf Hv. rewrite Forall_forall in Pf. apply (run_vars_in _ _ _ _ _ _ _ _ _ _ _ _ _ _ R). right. apply (Pf f Hf). exact Hv. }
    assert (Hhess : forall p f gs hs, fun_ok fsin fcos V f gs hs p -> S' f -> (forall v, occurs v f -> In v vars) -> upairs hs ->
        Forall (fun e => In (fst (fst e)) vars /\ In (snd (fst e)) vars) hs ->
        (dsize (q_size p) (q_degree p) <= exact_limit)%N -> (d2size (q_size p) (q_degree p) <= exact_limit)%N ->
        forall v i w j, In (v, i) (sp_var2index sp) -> In (w, j) (sp_var2index sp) -> (j <= i)%nat ->
        holds_entry (with_data (hess_of vars (length vars) hs) (map (fun e => @evaluate F NF vs (snd e)) hs)) i j
          (fun l => cell_derivative2 (q_val p) (nid v) (nid w) (fun c => IZR (r c)) l /\ cell_derivative2 (q_val p) (nid w) (nid v) (fun c => IZR (r c)) l)).
    { intros p f gs hs Hok Sf Hov Hup Hin Hl Hl2 v i w j Hv Hw Hji. apply Hv2i in Hv. apply Hv2i in Hw.
      destruct (hess_stored fsin fcos vars Hnd hs (length vars) vs v i w j Hv Hw Hji Hup Hin) as [A1 A2].
      pose proof (Hknown v f (nth_error_In _ _ Hv) Sf) as Kv. pose proof (Hknown w f (nth_error_In _ _ Hw) Sf) as Kw.
      destruct (fo_hess _ _ _ _ _ _ _ Hok Hl Hl2 r vs (Hstand f Hov) v w Kv Kw) as [(d & z & H1 & H2 & H3 & H4)|(H1 & H2 & H3 & H4)].
      - right. exists (@evaluate F NF vs d), (IZR z). split; [exact (A1 d H1)|]. split; [exists z; auto|auto].
      - left. split; [exact (A2 H1 H2)|auto]. }
    cbn [b_phi b_gphi b_hphi b_f b_j b_h]. split; [|split].
    - intros p Hp. assert (Hb : bf V ke eo p).
      { destruct (md_objective m) as [f|f|]; cbn [obj_exp obj_poly] in Eo, Hp.
        - injection Eo as <- <-. exact (has_bf fsin fcos V st ps f p Hh Hp).
        - destruct Hp as (p' & Hp & ->). exact (proj2 (bf_neg fsin fcos V _ _ _ _ _ (has_bf fsin fcos V st ps f p' Hh Hp) Eo)).
        - rewrite Hp. unfold mk_const in Eo. injection Eo as <- <-. apply bf_num; [exact (fl_int 0 ltac:(vm_compute; discriminate))|vm_compute; discriminate]. }
      pose proof (comp_fun_ok fsin fcos V ke S1 eo p obj ko Hb W1 Se Ec) as Hok. constructor.
      + rewrite Ephi. destruct (fo_val _ _ _ _ _ _ _ Hok r vs (Hstand eo Hobj)) as (z & Hz & Ez). exists z. split; [exact Hz|exact Ez].
      + intros Hl v i Hv. apply Hv2i in Hv. rewrite nth_error_map, Hv. cbn [option_map]. unfold lookup.
        set (gl := map (fun ge : node F * node F => (fst ge, @evaluate F NF vs (snd ge))) (sc_gphi obj)).
        assert (Egl : map fst gl = map fst (sc_gphi obj)) by (unfold gl; rewrite map_map; reflexivity).
        pose proof (Hknown v eo (nth_error_In _ _ Hv) Seo) as Kv.
        destruct (fo_grad _ _ _ _ _ _ _ Hok Hl r vs (Hstand eo Hobj) v Kv) as [(d & z & H1 & H2 & H3)|[H1 H2]].
        * assert (Eg : hget ptr_eq v gl = Some (@evaluate F NF vs d)).
          { apply pget_in.
            - rewrite Egl. pose proof (std_components_ok _ _ _ _ Ec) as (_ & _ & _ & Hvk & _). rewrite Hvk.
              eapply pnodup_perm; [apply Permutation_map, Permutation_sym, ord_perm|]. apply keys_nodup.
            - unfold gl. apply in_map_iff. exists (v, d). auto. }
          exists (@evaluate F NF vs d), (IZR z). split; [refine (f_equal Some _); transitivity (match hget ptr_eq v gl with Some y => y | None => @n0 F NF end); [reflexivity|rewrite Eg; reflexivity]|]. split; [exists z; auto|exact H3].
        * exists (@n0 F NF), 0. split; [|split; [exists 0%Z; split; [exact (fl_int 0 ltac:(vm_compute; discriminate))|reflexivity]|exact H2]].
          destruct (hget ptr_eq v gl) as [y|] eqn:Eg; [|refine (f_equal Some _); transitivity (match hget ptr_eq v gl with Some y => y | None => @n0 F NF end); [reflexivity|rewrite Eg; reflexivity]]. exfalso.
          apply hget_some_in in Eg as (w & Hw & Ep). apply (in_map fst) in Hw. rewrite Egl in Hw. cbn [fst] in Hw.
          apply H1. destruct Kv as [Ho|[Iv Ha]].
          -- assert (Hov : In v (map fst (sc_gphi obj))) by (apply (gphi_keys _ _ _ _ Ec); apply (keys_are_vars true ke S1 eo W1 Se); exact Ho). exact Hov.
          -- exfalso. assert (Ho : occurs w eo) by (apply (keys_are_vars true ke S1 eo W1 Se), (gphi_keys _ _ _ _ Ec); exact Hw). pose proof (Ha w Ho) as E0. rewrite ptr_eq_sym in E0. congruence.
      + intros Hl Hl2. apply (Hhess p eo _ _ Hok Seo Hobj (hphi_upairs _ _ _ _ Ec)); [|exact Hl|exact Hl2].
        apply Forall_forall. intros e He. destruct (hphi_keys eo ke obj ko Ec e He) as [K1 K2].
        split; apply Hobj, keys_occur; assumption.
    - rewrite Esp. cbn [sp_jcons]. rewrite map_length, <- R5. exact (enum_fst _).
    - intros i c Hic. rewrite Esp in Hic. cbn [sp_jcons] in Hic. apply enum_nth in Hic.
      assert (HS2 : Forall (fun c => S2 (clhs c) /\ S2 (crhs c)) (md_constraints m)).
      { eapply Forall_impl; [|apply mi_cons with (1 := Mi)]. intros c0 []; auto. }
      destruct (nth_error (cs_f (cat pp)) i) as [f|] eqn:Ef.
      2: { exfalso. apply nth_error_None in Ef. rewrite <- R5 in Ef. apply nth_error_None in Ef. congruence. }
      destruct (parts_poly fsin fcos V S2 _ 0 0 ko pp ar jr k' W2 HS2 HP i f Ef) as (c' & sl & hs & H1 & H2 & H3 & H4 & H5 & H6 & H7).
      assert (c' = c) as -> by congruence. split; [exact H5|].
      pose proof (nth_error_In _ _ Ef) as Hf.
      exists sl, (@evaluate F NF vs f), (with_data (hess_of vars (length vars) hs) (map (fun e => @evaluate F NF vs (snd e)) hs)).
      split; [|split; [|split]].
      + destruct sl as [s|]; [|exact H2]. destruct H2 as (A & B & C). split; [exact A|]. split; [|lia].
        pose proof (Hfun f s Hf (H4 s eq_refl)) as Hs. apply In_nth_error in Hs as [j Hj]. apply Hv2i in Hj. apply (in_map fst) in Hj. exact Hj.
      + rewrite nth_error_map, Ef. reflexivity.
      + rewrite nth_error_map, H3. reflexivity.
      + intros p (a & b & Ha & Hb & Ep) Hl.
        pose proof (H7 a b (bf_later _ _ ko _ _ (has_bf fsin fcos V st ps _ a Hh Ha) ltac:(lia)) (bf_later _ _ ko _ _ (has_bf fsin fcos V st ps _ b Hh Hb) ltac:(lia))) as Hok.
        change (sub_poly V sl a b) with (match sl with None => q_sub a b | Some s => q_sub (q_sub a b) (q_var V (nid s)) end) in Hok. rewrite <- Ep in Hok. specialize (Hok Hl).
        assert (Sf : S' f) by (rewrite Forall_forall in Pf; apply (Pf f Hf)).
        assert (Hov : forall v, occurs v f -> In v vars) by (intros v; apply Hfun; exact Hf).
        constructor.
        * destruct (fo_val _ _ _ _ _ _ _ Hok r vs (Hstand f Hov)) as (z & Hz & Ez). exists z. split; [exact Hz|exact Ez].
        * intros Hl1 v j Hv. apply Hv2i in Hv.
          assert (Hjv : Forall (fun e => In (snd (fst e)) vars) (cs_j (cat pp))).
          { eapply Forall_impl; [|exact Pj]. cbn. intros e [K1 _]. apply (run_vars_in _ _ _ _ _ _ _ _ _ _ _ _ _ _ R). auto. }
          destruct (jac_stored fsin fcos vars Hnd (cs_j (cat pp)) (length (cs_f (cat pp))) (length vars)
                       (repeat (@n0 F NF) (length (cs_j (cat pp)))) vs i v j Hv Hjv H6) as [A1 A2].
          destruct (fo_grad _ _ _ _ _ _ _ Hok Hl1 r vs (Hstand f Hov) v (Hknown v f (nth_error_In _ _ Hv) Sf)) as [(d & z & G1 & G2 & G3)|[G1 G2]].
          -- right. exists (@evaluate F NF vs d), (IZR z). split; [exact (A1 d G1)|]. split; [exists z; auto|exact G3].
          -- left. split; [exact (A2 G1)|exact G2].
        * intros Hl1 Hl2. apply (Hhess p f _ _ Hok Sf Hov); [| |exact Hl1|exact Hl2].
          -- pose proof (parts_upairs _ _ _ _ _ _ _ _ HP) as HU. rewrite Forall_forall in HU. apply HU. eapply nth_error_In; exact H3.
          -- rewrite Forall_forall in Ph. pose proof (Ph hs (nth_error_In _ _ H3)) as Phs. eapply Forall_impl; [|exact Phs]. cbn. intros e (K1 & K2 & _).
             split; apply (run_vars_in _ _ _ _ _ _ _ _ _ _ _ _ _ _ R); right; assumption.
  Qed.
End PolyModel.

(** A model: minimise x * x * y - 3 x, subject to x * y + 2 x <= 50 and x * x = y, at x = 3, y = 9. *)
Section Ex72.
  Local Open Scope string_scope.
  Ltac poly_next call pf :=
    lazymatch goal with Hl : @poly_hist NumF0 100 ?st ?es |- _ =>
      let r := eval vm_compute in (@mexec F NumF0 ord_id st call) in
      lazymatch r with Some ?st1 =>
        let H1 := fresh "Hl" in
        eassert (H1 : @poly_hist NumF0 100 st1 _) by
          (refine (@ph_step NumF0 100 ord_id st es call st1 _ Hl _ _); [pf|vm_cast_no_check (@eq_refl (option (mstate F)) (Some st1))]);
        clear Hl; rename H1 into Hl
      end
    end.
  Ltac poly_expr c := apply pc_expr; [eapply c; (reflexivity || (apply fl_int; lia))|vm_compute; discriminate].
  Example C72_example : exists st ps m sp k' x r po pc pe q', @poly_hist NumF0 100 st ps /\ In m (st_models st) /\
    @std_problem F NumF0 ord_id m (st_k st) = Ok (sp, k') /\ class_of (sp_prob sp) = ClMinlp /\ integer_point 100 sp x r /\
    obj_poly st ps (md_objective m) po /\ (d2size (q_size po) (q_degree po) <= exact_limit)%N /\
    (forall c, q_val po c = c 0%nat * c 0%nat * c 1%nat - 3 * c 0%nat) /\
    (exists c s, In (0%nat, c) (sp_jcons sp) /\ con_poly 100 st ps c (Some s) pc /\ (d2size (q_size pc) (q_degree pc) <= exact_limit)%N /\
       forall g, q_val pc g = g 0%nat * g 1%nat + 2 * g 0%nat - 50 - g (nid s)) /\
    (exists c, In (1%nat, c) (sp_jcons sp) /\ con_poly 100 st ps c None pe /\ (d2size (q_size pe) (q_degree pe) <= exact_limit)%N /\
       forall g, q_val pe g = g 0%nat * g 0%nat - g 1%nat) /\
    @minlp_evaluate F (base_of (sp_prob sp)) x = Ok q' /\ b_phi (m_bufs q') = flit 72 /\ b_gphi (m_bufs q') = [flit 0; flit 51; flit 9] /\
    entries (b_hphi (m_bufs q')) = [(1, 1, flit 18); (2, 1, flit 6)]%nat /\
    b_f (m_bufs q') = [flit 0; flit 0] /\
    entries (b_j (m_bufs q')) = [(0, 1, flit 11); (0, 2, flit 3); (0, 0, flit (-1)); (1, 1, flit 6); (1, 2, flit (-1))]%nat /\
    map entries (b_h (m_bufs q')) = [[(2, 1, flit 1)]; [(1, 1, flit 2)]]%nat.
  Proof.
    pose proof (@ph_start NumF0 100) as Hl.
    poly_next (@CExpr F (OVar "x" VarContinuous)) ltac:(poly_expr po_var).
    poly_next (@CExpr F (OVar "y" VarInteger)) ltac:(poly_expr po_var).
    poly_next (@CExpr F (OMulNN 0 0)) ltac:(poly_expr po_mul_nn).
    poly_next (@CExpr F (OMulNN 2 1)) ltac:(poly_expr po_mul_nn).
    poly_next (@CExpr F (OMulSN (flit 3) 0)) ltac:(poly_expr po_mul_sn).
    poly_next (@CExpr F (OSubNN 3 4)) ltac:(poly_expr po_sub_nn).
    poly_next (@CExpr F (OMulNN 0 1)) ltac:(poly_expr po_mul_nn).
    poly_next (@CExpr F (OMulSN (flit 2) 0)) ltac:(poly_expr po_mul_sn).
    poly_next (@CExpr F (OAddNN 6 7)) ltac:(poly_expr po_add_nn).
    poly_next (@CCmpNS F 8 LessEqual (flit 50) "ineq") ltac:(apply pc_ns with (z := 50%Z); [apply fl_int; lia|vm_compute; discriminate]).
    poly_next (@CCmpNN F 2 Equal 1 "eq") ltac:(apply pc_nn).
    poly_next (@CNewModel F) ltac:(apply pc_new).
    poly_next (@CSetObj F 0 Minimise 5) ltac:(apply pc_obj).
    poly_next (@CAddConstrs F 0 [0; 1]%nat) ltac:(apply pc_adds).
    match type of Hl with poly_hist _ ?st _ =>
      assert (C : match st_models st with
        | [m] => match @std_problem F NumF0 ord_id m (st_k st) with
                 | Ok (sp, _) => class_of (sp_prob sp) = ClMinlp /\ m_nx (base_of (sp_prob sp)) = 3%nat /\
                      map (fun e => (nid (fst e), snd e)) (sp_var2index sp) = [(64, 0); (0, 1); (1, 2)]%nat /\
                      sp_jcons sp = combine [0; 1]%nat (md_constraints m) /\
                      match @minlp_evaluate F (base_of (sp_prob sp)) [flit (-17); flit 3; flit 9] with
                      | Ok q' => b_phi (m_bufs q') = flit 72 /\ b_gphi (m_bufs q') = [flit 0; flit 51; flit 9] /\
                                 entries (b_hphi (m_bufs q')) = [(1, 1, flit 18); (2, 1, flit 6)]%nat /\
                                 b_f (m_bufs q') = [flit 0; flit 0] /\
                                 entries (b_j (m_bufs q')) = [(0, 1, flit 11); (0, 2, flit 3); (0, 0, flit (-1)); (1, 1, flit 6); (1, 2, flit (-1))]%nat /\
                                 map entries (b_h (m_bufs q')) = [[(2, 1, flit 1)]; [(1, 1, flit 2)]]%nat
                      | Panic _ => False end
                 | Panic _ => False end
        | _ => False end) by (vm_compute; repeat split)
    end.
    cbn [st_models] in C. match type of C with match ?e with Ok _ => _ | Panic _ => _ end => destruct e as [[sp k']|] eqn:Esp; [|destruct C] end.
    destruct C as (C1 & C2 & C3 & C4 & C5).
    match type of C5 with match ?e with Ok _ => _ | Panic _ => _ end => destruct e as [q'|] eqn:Eq; [|destruct C5] end.
    destruct C5 as (D1 & D2 & D3 & D4 & D5 & D6).
    eexists _, _, _, sp, k', [flit (-17); flit 3; flit 9], (fun i => match i with 0%nat => 3 | 1%nat => 9 | _ => (-17) end)%Z, _, _, _, q'.
    split; [exact Hl|]. split; [left; reflexivity|]. split; [exact Esp|]. split; [exact C1|]. split; [split|].
    - rewrite C2. reflexivity.
    - intros v i Hv. apply (in_map (fun e => (nid (fst e), snd e))) in Hv. rewrite C3 in Hv. cbn [fst snd] in Hv.
      repeat (destruct Hv as [Hv|Hv]; [pose proof (f_equal fst Hv) as E1; pose proof (f_equal snd Hv) as E2; cbn [fst snd] in E1, E2; rewrite <- E1, <- E2;
        eexists; split; [reflexivity|split; [apply fl_int; lia|vm_compute; discriminate]]|]). destruct Hv.
    - split; [left; exists 5%nat; split; reflexivity|]. split; [vm_compute; discriminate|]. split; [intros c; cbn; ring|].
      split; [|split].
      + eexists _, (NVar 64 "_s_j0_" VarContinuous). split; [rewrite C4; left; reflexivity|]. split.
        { eexists _, _. split; [left; exists 8%nat; split; reflexivity|]. split; [right; eexists _, _, 50%Z; split; [reflexivity|split; [apply (fl_int 50); lia|split; [vm_compute; discriminate|reflexivity]]]|reflexivity]. }
        split; [vm_compute; discriminate|intros g; cbn; ring].
      + eexists. split; [rewrite C4; right; left; reflexivity|]. split.
        { eexists _, _. split; [left; exists 2%nat; split; reflexivity|]. split; [left; exists 1%nat; split; reflexivity|reflexivity]. }
        split; [vm_compute; discriminate|intros g; cbn; ring].
      + auto 10.
  Qed.
End Ex72.
