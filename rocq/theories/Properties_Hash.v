(** Property C53 (and the part of C24 about the order of the variables): what
    the standard problem owes to the iteration order of the hash maps. *)
From Verif Require Import Base Num Node NodeInd NodeDiff NodeStd Constraint Matrix Problem ModelStd Model
     ExprSpec DiffSpec World Fresh MapProofs StdPropProofs GradProofs OccProofs Sim DiffProofs ConstrProofs PartsProofs ConstrSpec ConstrEquiv
     MatSpec MatrixProofs ProblemProofs BuildProofs BuildMain ModelSpec PointProofs EvalRun
     Api ApiProofs ModelApi StdMain HistProofs StdFacts ModelExample Properties_Std Properties_Feas EvalSpec Properties_Eval
     HashSpec HashProofs HashMain.
From Coq Require Import Reals Lra.

(** Everything about two runs. *)
Lemma two_runs {T} `{Num T} (O1 O2 : HashOrd) (st : mstate T) m sp1 k1 sp2 k2 :
  hist any_op st -> In m (st_models st) -> neqb (@nm1 T _) n0 = false ->
  @std_problem T _ O1 m (st_k st) = Ok (sp1, k1) -> @std_problem T _ O2 m (st_k st) = Ok (sp2, k2) ->
  exists tw pi,
    same_up_to (st_k st) sp1 sp2 tw pi /\
    (distinct_names sp1 -> map tw (map fst (sp_var2index sp1)) = map fst (sp_var2index sp2) /\
                           forall i, i < length (sp_var2index sp1) -> pi i = i) /\
    (forall q1 q2 x1 x2, evolves (base_of (sp_prob sp1)) q1 -> evolves (base_of (sp_prob sp2)) q2 ->
       length x1 = m_nx (base_of (sp_prob sp1)) -> renumbered pi x1 x2 ->
       exists q1' q2', minlp_evaluate q1 x1 = Ok q1' /\ minlp_evaluate q2 x2 = Ok q2' /\
         b_f (m_bufs q2') = b_f (m_bufs q1') /\
         (costs (sp_prob sp1) = None \/ distinct_names sp1 -> b_phi (m_bufs q2') = b_phi (m_bufs q1'))) /\
    (forall v w, In v (map fst (sp_var2index sp1)) -> In w (map fst (sp_var2index sp1)) -> ptr_eq (tw v) (tw w) = ptr_eq v w) /\
    (forall obj1 cs1 obj2 cs2, @model_std T _ O1 m (st_k st) = Ok ((obj1, cs1), k1) -> @model_std T _ O2 m (st_k st) = Ok ((obj2, cs2), k2) ->
       Forall2 (fun f1 f2 => forall vs1 vs2 : vals T,
          (forall v, In v (map fst (sp_var2index sp1)) -> evaluate vs1 v = evaluate vs2 (tw v)) ->
          evaluate vs1 f1 = evaluate vs2 f2) (cs_f cs1) (cs_f cs2)).
Proof.
  intros Hh Hm Hnm E1 E2.
  destruct (hist_inv false st Hh) as (S & Hi).
  pose proof (hi_models _ _ _ Hi) as G. rewrite Forall_forall in G. destruct (G m Hm) as (Mi & _ & _). clear G.
  pose proof (hi_world _ _ _ Hi) as HW.
  destruct (@std_problem_run T _ O1 false _ S m sp1 k1 HW Mi E1) as (obj1 & S1 & eo & ke & ko1 & ps1 & ar1 & jr1 & uc1 & lc1 & Em1 & R1 & -> & U1 & _ & _ & L1 & _ & _).
  destruct (@std_problem_run T _ O2 false _ S m sp2 k2 HW Mi E2) as (obj2 & S2 & eo' & ke' & ko2 & ps2 & ar2 & jr2 & uc2 & lc2 & Em2 & R2 & -> & U2 & _ & _ & L2 & _ & _).
  pose proof (sr_obj _ _ _ _ _ _ _ _ _ _ _ _ _ R1) as A1. pose proof (sr_obj _ _ _ _ _ _ _ _ _ _ _ _ _ R2) as A2.
  rewrite A1 in A2. injection A2 as <- <-.
  pose proof (sr_le _ _ _ _ _ _ _ _ _ _ _ _ _ R1) as Le1. pose proof (sr_le _ _ _ _ _ _ _ _ _ _ _ _ _ R2) as Le2.
  destruct (parts_two O1 O2 false (st_k st) S HW (md_constraints m) 0 0 ko1 ko2 ps1 ps2 ar1 ar2 jr1 jr2 k1 k2
              (mi_cons _ _ Mi) ltac:(lia) ltac:(lia) (sr_parts _ _ _ _ _ _ _ _ _ _ _ _ _ R1) (sr_parts _ _ _ _ _ _ _ _ _ _ _ _ _ R2))
    as (_ & _ & sl & F & N1 & N2 & Hk & Htw).
  set (tw0 := tw sl). set (pi0 := pi O1 O2 k1 obj1 ps1 k2 obj2 ps2 sl).
  exists tw0, pi0.
  destruct (@base_shape T _ O1 k1 (md_init m) obj1 (cat ps1)) as (_ & _ & _ & _ & _ & _ & En1).
  pose proof (fun HN => pi_id O1 O2 false (st_k st) S m HW Mi Hnm eo ke k1 S1 obj1 ko1 ps1 ar1 jr1 k2 S2 obj2 ko2 ps2 ar2 jr2 R1 R2 sl F N1 N2 Hk Htw HN) as Hid.
  assert (Hdn : forall X1 X2 X3 X4 X5, distinct_names (mk_std_prob X1 (v2i_of (@problem_vars T O1 k1 obj1 (cat ps1))) X2 X3 X4 X5) ->
                NoDup (map name (@problem_vars T O1 k1 obj1 (cat ps1)))).
  { intros ? ? ? ? ? HN. unfold distinct_names in HN. cbn [sp_var2index] in HN.
    rewrite <- (enum_keys (@problem_vars T O1 k1 obj1 (cat ps1))), map_map. exact HN. }
  split; [|split; [|split; [|split]]].
  - exact (same_up_to_main O1 O2 false (st_k st) S m HW Mi Hnm eo ke k1 S1 obj1 ko1 ps1 ar1 jr1 k2 S2 obj2 ko2 ps2 ar2 jr2 R1 R2 sl F N1 N2 Hk Htw uc1 lc1 uc2 lc2 U1 L1 U2 L2).
  - intros HN. apply Hdn in HN. cbn [sp_var2index]. rewrite v2i_len, !enum_keys. apply Hid. exact HN.
  - cbn [sp_prob]. intros q1 q2 x1 x2 V1 V2 Lx Hx. rewrite En1 in Lx.
    assert (Lx2 : length x2 = length (@problem_vars T O2 k2 obj2 (cat ps2))).
    { rewrite (proj1 Hx), Lx. symmetry.
      exact (vars_len2 O1 O2 false (st_k st) S m HW Mi Hnm eo ke k1 S1 obj1 ko1 ps1 ar1 jr1 k2 S2 obj2 ko2 ps2 ar2 jr2 R1 R2 sl F N1 N2 Hk Htw). }
    destruct (@run_evaluate T _ O1 _ _ _ _ _ _ _ _ _ _ _ _ _ q1 x1 R1 V1 Lx) as (q1' & Q1 & B1 & _).
    destruct (@run_evaluate T _ O2 _ _ _ _ _ _ _ _ _ _ _ _ _ q2 x2 R2 V2 Lx2) as (q2' & Q2 & B2 & _).
    exists q1', q2'. split; [exact Q1|]. split; [exact Q2|]. rewrite B1, B2.
    pose proof (eval_same O1 O2 false (st_k st) S m HW Mi Hnm eo ke k1 S1 obj1 ko1 ps1 ar1 jr1 k2 S2 obj2 ko2 ps2 ar2 jr2 R1 R2 sl F N1 Htw x1 x2 Lx Hx) as [Ef Eo].
    destruct (prop_same O1 O2 false (st_k st) S m eo ke k1 S1 obj1 ko1 ps1 ar1 jr1 k2 S2 obj2 ko2 ps2 ar2 jr2 R1 R2) as (P1 & P2 & P3 & P4).
    pose proof (linear_same O1 O2 false (st_k st) S m eo ke k1 S1 obj1 ko1 ps1 ar1 jr1 k2 S2 obj2 ko2 ps2 ar2 jr2 R1 R2 sl F N1 Htw) as El.
    unfold bufs_at. rewrite El. destruct (p_linear obj1 (cat ps1)) eqn:El1; cbn [b_f b_phi].
    + split; [reflexivity|]. intros [Hc|Hc].
      * exfalso. unfold p_problem in Hc. rewrite El1 in Hc. destruct (@no_int T O1 k1 obj1 (cat ps1)); discriminate.
      * apply Hdn in Hc. destruct (Hid Hc) as [Ev Ei].
        assert (x2 = x1) as ->.
        { apply nth_error_ext_len with (d := n0); [apply Hx|]. intros i Hlt. rewrite (proj1 Hx) in Hlt.
          pose proof (proj2 Hx i Hlt) as Hi'. unfold pi0 in Hi'. rewrite Ei in Hi' by lia.
          destruct (nth_error x1 i) as [y|] eqn:Ey; [|apply nth_error_None in Ey; lia].
          rewrite (nth_error_nth _ _ _ Ey), (nth_error_nth _ _ _ Hi'). reflexivity. }
        f_equal. unfold p_cvec. rewrite P1, <- Ev, map_map. apply map_ext_in. intros v Hv.
        apply (lookup_tw O1 O2 false (st_k st) S m HW Mi Hnm eo ke k1 S1 obj1 ko1 ps1 ar1 jr1 k2 S2 obj2 ko2 ps2 ar2 jr2 R1 R2 sl F N1 Hk); auto.
        rewrite P2. apply Forall_forall. intros kv Hkv.
        apply (eo_old O1 false (st_k st) S m HW Mi Hnm eo ke k1 S1 obj1 ko1 ps1 ar1 jr1 R1). apply keys_occur, in_map; auto.
    + split; [exact Ef|]. intros _. rewrite P3, P4. exact Eo.
  - cbn [sp_var2index]. rewrite enum_keys.
    exact (tw_ptr O1 O2 false (st_k st) S m HW Mi Hnm eo ke k1 S1 obj1 ko1 ps1 ar1 jr1 k2 S2 obj2 ko2 ps2 ar2 jr2 R1 R2 sl F N1 N2 Hk Htw).
  - intros o1 c1 o2 c2 M1 M2. rewrite Em1 in M1. rewrite Em2 in M2. injection M1 as <- <-. injection M2 as <- <-.
    cbn [sp_var2index]. rewrite enum_keys.
    eapply F2_imp; [|exact (tn_f _ _ _ (TW O1 O2 false (st_k st) S m eo ke k1 S1 obj1 ko1 ps1 ar1 jr1 k2 S2 obj2 ko2 ps2 ar2 jr2 R1 R2 sl F N1 Htw))].
    cbn. intros f1 f2 Hf vs1 vs2 Hv. apply Hf. intros v Hin. apply Hv. apply (run_vars_in _ _ _ _ _ _ _ _ _ _ _ _ _ _ R1). auto.
Qed.

(** ** C53 The standard problem does not depend on the hash order *)
Theorem C53_same_problem {T} `{Num T} (O1 O2 : HashOrd) (st : mstate T) m sp1 k1 sp2 k2 :
  hist any_op st -> In m (st_models st) -> neqb (@nm1 T _) n0 = false ->
  @std_problem T _ O1 m (st_k st) = Ok (sp1, k1) -> @std_problem T _ O2 m (st_k st) = Ok (sp2, k2) ->
  exists tw pi,
    same_up_to (st_k st) sp1 sp2 tw pi /\
    (distinct_names sp1 -> forall i, i < length (sp_var2index sp1) -> pi i = i) /\
    (forall q1 q2 x1 x2, evolves (base_of (sp_prob sp1)) q1 -> evolves (base_of (sp_prob sp2)) q2 ->
       length x1 = m_nx (base_of (sp_prob sp1)) -> renumbered pi x1 x2 ->
       exists q1' q2', minlp_evaluate q1 x1 = Ok q1' /\ minlp_evaluate q2 x2 = Ok q2' /\
         b_f (m_bufs q2') = b_f (m_bufs q1') /\
         (costs (sp_prob sp1) = None \/ distinct_names sp1 -> b_phi (m_bufs q2') = b_phi (m_bufs q1'))).
Proof.
  intros Hh Hm Hnm E1 E2. destruct (two_runs O1 O2 st m sp1 k1 sp2 k2 Hh Hm Hnm E1 E2) as (tw & pi & A & B & C & _).
  exists tw, pi. split; [exact A|]. split; [|exact C]. intros HN. apply (proj2 (B HN)).
Qed.

Lemma nth_error_ext_id {A} (l l' : list A) n : length l = n -> length l' = n ->
  (forall i, i < n -> nth_error l' i = nth_error l i) -> l' = l.
Proof.
  intros L L' Hi. destruct l as [|d l]; [destruct l'; cbn in *; [reflexivity|subst; discriminate]|].
  apply nth_error_ext_len with (d := d); [congruence|]. intros i Hlt. rewrite L' in Hlt. specialize (Hi i Hlt).
  destruct (nth_error (d :: l) i) as [y|] eqn:Ey; [|apply nth_error_None in Ey; lia].
  rewrite (nth_error_nth _ _ _ Ey), (nth_error_nth _ _ _ Hi). reflexivity.
Qed.

(** When the names are pairwise different the two problems have the same
    variables in the same order, and the same vectors. *)
Theorem C24_order {T} `{Num T} (O1 O2 : HashOrd) (st : mstate T) m sp1 k1 sp2 k2 :
  hist any_op st -> In m (st_models st) -> neqb (@nm1 T _) n0 = false ->
  @std_problem T _ O1 m (st_k st) = Ok (sp1, k1) -> @std_problem T _ O2 m (st_k st) = Ok (sp2, k2) ->
  distinct_names sp1 ->
  map (fun vi => (name (fst vi), is_integer (fst vi), snd vi)) (sp_var2index sp2) =
  map (fun vi => (name (fst vi), is_integer (fst vi), snd vi)) (sp_var2index sp1) /\
  (forall v i, model_var m v -> In (v, i) (sp_var2index sp1) <-> In (v, i) (sp_var2index sp2)) /\
  m_l (base_of (sp_prob sp2)) = m_l (base_of (sp_prob sp1)) /\
  m_u (base_of (sp_prob sp2)) = m_u (base_of (sp_prob sp1)) /\
  m_p (base_of (sp_prob sp2)) = m_p (base_of (sp_prob sp1)) /\
  m_x0 (base_of (sp_prob sp2)) = m_x0 (base_of (sp_prob sp1)) /\
  m_b (base_of (sp_prob sp2)) = m_b (base_of (sp_prob sp1)) /\
  costs (sp_prob sp2) = costs (sp_prob sp1) /\
  class_of (sp_prob sp2) = class_of (sp_prob sp1) /\
  Permutation (entries (m_a (base_of (sp_prob sp2)))) (entries (m_a (base_of (sp_prob sp1)))).
Proof.
  intros Hh Hm Hnm E1 E2 HN.
  destruct (two_runs O1 O2 st m sp1 k1 sp2 k2 Hh Hm Hnm E1 E2) as (tw & pi & A & B & _). destruct (B HN) as [Bv Bi]. clear B.
  assert (W1 : well_formed sp1).
  { unfold std_problem in E1. pose proof E1 as E1'. apply bind_ok in E1 as (r & k1' & Em1 & _).
    destruct (@C29_well_formed T _ O1 st m r k1' Hh Hm Em1) as (sp & Es & Wf). unfold std_problem in Es. rewrite E1' in Es. injection Es as -> _. exact Wf. }
  assert (W2 : well_formed sp2).
  { unfold std_problem in E2. pose proof E2 as E2'. apply bind_ok in E2 as (r & k2' & Em2 & _).
    destruct (@C29_well_formed T _ O2 st m r k2' Hh Hm Em2) as (sp & Es & Wf). unfold std_problem in Es. rewrite E2' in Es. injection Es as -> _. exact Wf. }
  destruct (@C24_bijection T _ O1 st m sp1 k1 Hh Hm E1 Hnm) as (D1 & D1' & D1'' & _).
  destruct (@C24_bijection T _ O2 st m sp2 k2 Hh Hm E2 Hnm) as (D2 & D2' & _).
  set (n := length (sp_var2index sp1)) in *.
  assert (Ln : length (sp_var2index sp2) = n) by exact (su_len _ _ _ _ _ A).
  assert (Hold : forall v, model_var m v -> nid v < st_k st).
  { intros v Hv. destruct (hist_inv false st Hh) as (S & Hi). pose proof (hi_models _ _ _ Hi) as G. rewrite Forall_forall in G.
    destruct (G m Hm) as (Mi & _ & _). apply (w_lt _ _ _ (hi_world _ _ _ Hi)).
    destruct Hv as [Hv|(c & Hc & Hv)].
    - pose proof (mi_obj _ _ Mi) as Ho. destruct (md_objective m); [| |destruct Hv]; destruct Hv as [_ Hv];
        exact (world_sub _ _ _ _ _ (hi_world _ _ _ Hi) Ho Hv).
    - pose proof (mi_cons _ _ Mi) as Hcs. rewrite Forall_forall in Hcs. destruct (Hcs c Hc) as [Sl Sr].
      destruct Hv as [[_ Hv]|[_ Hv]]; [exact (world_sub _ _ _ _ _ (hi_world _ _ _ Hi) Sl Hv)|exact (world_sub _ _ _ _ _ (hi_world _ _ _ Hi) Sr Hv)]. }
  assert (Hin : forall v i, In (v, i) (sp_var2index sp1) -> i < n /\ In (tw v, i) (sp_var2index sp2)).
  { intros v i Hv. assert (Hi : i < n).
    { assert (In i (map snd (sp_var2index sp1))) by (apply in_map_iff; exists (v, i); auto). rewrite D1 in H0. apply in_seq in H0.
      assert (length (sp_var2index sp1) = m_nx (base_of (sp_prob sp1))) by (rewrite <- (map_length snd), D1, seq_length; reflexivity). lia. }
    split; [exact Hi|]. rewrite <- (Bi i Hi). apply (su_var _ _ _ _ _ A); exact Hv. }
  split; [|split; [|split; [|split; [|split; [|split; [|split; [|split; [|split]]]]]]]].
  - assert (Ev : sp_var2index sp2 = map (fun vi => (tw (fst vi), snd vi)) (sp_var2index sp1)).
    { assert (Es : map snd (sp_var2index sp2) = map snd (sp_var2index sp1)).
      { rewrite D1, D2. f_equal. rewrite <- (seq_length (m_nx (base_of (sp_prob sp2))) 0), <- D2, map_length, Ln.
        unfold n. rewrite <- (map_length snd), D1, seq_length. reflexivity. }
      revert Bv Es. clear. generalize (sp_var2index sp1) as l, (sp_var2index sp2) as l'.
      induction l as [|[v i] l IH]; intros [|[w j] l']; cbn; intros B E; try discriminate; auto.
      injection B as -> B. injection E as -> E. f_equal. apply IH; auto. }
    rewrite Ev, map_map. apply map_ext_in. intros [v i] Hv. cbn [fst snd].
    destruct (su_var _ _ _ _ _ A v i Hv) as (_ & -> & ->). reflexivity.
  - intros v i Hv. split.
    + intros Hvi. destruct (Hin v i Hvi) as [_ G]. rewrite (su_old _ _ _ _ _ A v (Hold v Hv)) in G. exact G.
    + intros Hvi. pose proof (D1'' v Hv) as G. apply in_map_iff in G as ([w j] & Ew & Hj). cbn in Ew. subst w.
      destruct (Hin v j Hj) as [_ G]. rewrite (su_old _ _ _ _ _ A v (Hold v Hv)) in G.
      destruct (D2' v v i j Hvi G eq_refl) as [_ ->]. exact Hj.
  - apply nth_error_ext_id with (n := n); [apply (wf_l _ W1)|rewrite (wf_l _ W2); exact Ln|].
    intros i Hi. rewrite <- (Bi i Hi) at 1. apply (su_l _ _ _ _ _ A); exact Hi.
  - apply nth_error_ext_id with (n := n); [apply (wf_u _ W1)|rewrite (wf_u _ W2); exact Ln|].
    intros i Hi. rewrite <- (Bi i Hi) at 1. apply (su_u _ _ _ _ _ A); exact Hi.
  - apply nth_error_ext_id with (n := n); [apply (wf_p _ W1)|rewrite (wf_p _ W2); exact Ln|].
    intros i Hi. rewrite <- (Bi i Hi) at 1. apply (su_p _ _ _ _ _ A); exact Hi.
  - destruct (su_x0 _ _ _ _ _ A) as (x1 & x2 & X1 & X2 & Hx). destruct (wf_x0 _ W1) as (y1 & Y1 & L1). destruct (wf_x0 _ W2) as (y2 & Y2 & L2).
    rewrite X1, X2 in *. injection Y1 as <-. injection Y2 as <-. f_equal.
    apply nth_error_ext_id with (n := n); [exact L1|congruence|]. intros i Hi. rewrite <- (Bi i Hi) at 1. apply Hx; exact Hi.
  - exact (su_b _ _ _ _ _ A).
  - pose proof (su_c _ _ _ _ _ A) as Hc. pose proof (wf_c _ W1) as C1. pose proof (wf_c _ W2) as C2.
    assert (G : forall c1 c2 : list T, length c1 = n -> length c2 = length (sp_var2index sp2) ->
              (forall i, i < n -> nth_error c2 (pi i) = nth_error c1 i) -> c2 = c1).
    { intros c1 c2 Q1 Q2 Hi. apply nth_error_ext_id with (n := n); [exact Q1|congruence|].
      intros i Hlt. rewrite <- (Bi i Hlt) at 1. auto. }
    destruct (sp_prob sp1), (sp_prob sp2); cbn [costs] in *; try contradiction; auto; f_equal; apply G; auto.
  - exact (su_class _ _ _ _ _ A).
  - apply Permutation_sym. eapply perm_trans; [|exact (su_a _ _ _ _ _ A)].
    erewrite map_ext_in with (g := fun e => e); [rewrite map_id; apply Permutation_refl|].
    intros [[r c] v] He. cbn [fst snd]. rewrite Bi; [reflexivity|].
    destruct (wf_a _ W1) as (_ & _ & _ & _ & _ & Fc). rewrite Forall_forall in Fc. apply Fc.
    unfold entries in He. apply in_combine_l, in_combine_r in He. exact He.
Qed.
