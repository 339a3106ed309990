(** Property C53, continued: the two standard problems have the same feasible
    points, objective values, optimal points and derivatives. *)
From Verif Require Import Base Num Node NodeInd NodeDiff NodeStd Constraint Matrix Problem ModelStd Model
     ExprSpec DiffSpec World Fresh MapProofs StdPropProofs GradProofs CompProofs PanicProofs OccProofs ConstrPanic SlotProofs Properties_Constr HistAff Sim DiffProofs EvalProofs ConstrProofs PartsProofs ConstrSpec ConstrEquiv
     MatSpec MatrixProofs ProblemProofs BuildProofs BuildMain ModelSpec PointProofs EvalRun
     Api ApiProofs ModelApi StdMain HistProofs StdFacts ModelExample Properties_Std Properties_Feas EvalSpec Properties_Eval
     HashSpec HashProofs HashMain Properties_Hash.
From Coq Require Import Reals Lra.

(** An injection of [0, n) into itself meets every index. *)
Lemma pi_onto (pi : nat -> nat) n : (forall i j, i < n -> j < n -> pi i = pi j -> i = j) ->
  (forall i, i < n -> pi i < n) -> forall j, j < n -> exists i, i < n /\ pi i = j.
Proof.
  intros Hinj Hlt j Hj.
  assert (Hnd : NoDup (map pi (seq 0 n))).
  { assert (G : forall l, NoDup l -> (forall i, In i l -> i < n) -> NoDup (map pi l)).
    { induction l as [|a l IH]; intros ND Hl; cbn; [constructor|]. inversion ND; subst. constructor.
      - intros Hin. apply in_map_iff in Hin as (b & Eb & Hb). apply Hinj in Eb; [subst; contradiction| |]; apply Hl; cbn; auto.
      - apply IH; auto. intros i Hi. apply Hl; cbn; auto. }
    apply G; [apply seq_NoDup|]. intros i Hi. apply in_seq in Hi. lia. }
  assert (Hin : In j (map pi (seq 0 n))).
  { apply (NoDup_length_incl Hnd (l' := seq 0 n)).
    - rewrite map_length. auto.
    - intros y Hy. apply in_map_iff in Hy as (i & <- & Hi). apply in_seq in Hi. apply in_seq. specialize (Hlt i). lia.
    - apply in_seq. lia. }
  apply in_map_iff in Hin as (i & <- & Hi). apply in_seq in Hi. exists i. split; [lia|reflexivity].
Qed.

Lemma row_dot_xsum row (x : list X) : row_dot row x = xsum (map (fun e => x2 Rmult (nth (fst e) x (Some 0%R)) (snd e)) row).
Proof.
  assert (G : forall acc : X, fold_left (fun acc e => madd acc (mmul (nth (fst e) x mzero) (snd e))) row acc =
              fold_left (x2 Rplus) (map (fun e => x2 Rmult (nth (fst e) x (Some 0%R)) (snd e)) row) acc).
  { induction row as [|e row IH]; intros acc; cbn [map fold_left]; [reflexivity|apply IH]. }
  exact (G (Some 0%R)).
Qed.
Lemma combine_seq (c x : list X) n : length c = n -> length x = n ->
  map (fun cx => x2 Rmult (fst cx) (snd cx)) (combine c x) = map (fun i => x2 Rmult (nth i c (Some 0%R)) (nth i x (Some 0%R))) (seq 0 n).
Proof.
  revert x n. induction c as [|a c IH]; intros [|b x] n; cbn [length]; intros L1 L2; subst; try discriminate; [reflexivity|].
  cbn [combine map seq nth]. f_equal. rewrite <- seq_shift, map_map. apply IH; [reflexivity|]. lia.
Qed.

Lemma filter_perm {A} (f : A -> bool) l l' : Permutation l l' -> Permutation (filter f l) (filter f l').
Proof.
  induction 1 as [|x l l' _ IH|x y l|l l' l'' _ IH1 _ IH2]; cbn; auto.
  - destruct (f x); auto.
  - destruct (f x), (f y); auto. apply perm_swap.
  - eapply perm_trans; eauto.
Qed.
Lemma row_of_perm {A} r (l l' : list (nat * nat * A)) : Permutation l l' -> Permutation (row_of r l) (row_of r l').
Proof. intros HP. unfold row_of. apply Permutation_map, filter_perm, HP. Qed.
Lemma row_of_map {A} r pi (l : list (nat * nat * A)) :
  row_of r (map (fun e => (fst (fst e), pi (snd (fst e)), snd e)) l) = map (fun cv => (pi (fst cv), snd cv)) (row_of r l).
Proof.
  unfold row_of. induction l as [|[[i j] v] l IH]; cbn [map filter fst snd]; auto.
  destruct (i =? r); cbn [map fst snd]; rewrite IH; reflexivity.
Qed.

Lemma nth_renumbered {A} pi (x1 x2 : list A) d i : renumbered pi x1 x2 -> i < length x1 -> nth (pi i) x2 d = nth i x1 d.
Proof.
  intros [_ Hr] Hi. specialize (Hr i Hi). destruct (nth_error x1 i) as [y|] eqn:Ey; [|apply nth_error_None in Ey; lia].
  rewrite (nth_error_nth _ _ _ Ey). apply (nth_error_nth _ _ _ Hr).
Qed.
Lemma renumbered_map {A B} (f : A -> B) pi x1 x2 : renumbered pi x1 x2 -> renumbered pi (map f x1) (map f x2).
Proof.
  intros [L Hr]. split; [rewrite !map_length; auto|]. intros i Hi. rewrite map_length in Hi. rewrite !nth_error_map, (Hr i Hi). reflexivity.
Qed.

Section Solutions.
  Variables (k : nat) (sp1 sp2 : std_prob X) (tw : nodeX -> nodeX) (pi : nat -> nat).
  Hypothesis SU : same_up_to k sp1 sp2 tw pi.
  Hypothesis W1 : well_formed sp1.
  Hypothesis W2 : well_formed sp2.
  Notation n := (length (sp_var2index sp1)).

  Lemma pi_lt i : i < n -> pi i < n.
  Proof.
    intros Hi. pose proof (su_l _ _ _ _ _ SU i Hi) as El.
    destruct (nth_error (m_l (base_of (sp_prob sp1))) i) as [y|] eqn:Ey.
    - rewrite <- (su_len _ _ _ _ _ SU), <- (wf_l _ W2). apply nth_error_Some. congruence.
    - exfalso. apply nth_error_None in Ey. rewrite (wf_l _ W1) in Ey. lia.
  Qed.
  Lemma pi_surj j : j < n -> exists i, i < n /\ pi i = j.
  Proof. apply pi_onto; [exact (su_inj _ _ _ _ _ SU)|exact pi_lt]. Qed.

  (** Every point of either problem has its partner. *)
  Lemma partner1 (y2 : list R) : length y2 = n -> exists y1, length y1 = n /\ renumbered pi y1 y2.
  Proof.
    intros L. exists (map (fun i => nth (pi i) y2 0%R) (seq 0 n)). split; [rewrite map_length, seq_length; auto|].
    split; [rewrite map_length, seq_length; auto|]. rewrite map_length, seq_length. intros i Hi.
    rewrite nth_error_map, (nth_error_nth' _ 0) by (rewrite seq_length; auto). rewrite seq_nth by auto. cbn.
    apply nth_error_nth'. rewrite L. apply pi_lt; auto.
  Qed.
  Lemma renumbered_fun {A} (y1 y2 y2' : list A) : length y1 = n -> renumbered pi y1 y2 -> renumbered pi y1 y2' -> y2' = y2.
  Proof.
    intros L R R'. apply nth_error_ext_id with (n := n); [rewrite (proj1 R); auto|rewrite (proj1 R'); auto|].
    intros j Hj. destruct (pi_surj j Hj) as (i & Hi & <-). rewrite (proj2 R), (proj2 R') by lia. reflexivity.
  Qed.
  Lemma partner2 (y1 : list R) : length y1 = n -> exists y2, length y2 = n /\ renumbered pi y1 y2.
  Proof.
    intros L.
    assert (G : forall m, m <= n -> exists y2, length y2 = m /\ forall i, i < n -> pi i < m -> nth_error y2 (pi i) = nth_error y1 i).
    { induction m as [|m IH]; intros Hm; [exists []; split; [reflexivity|intros; lia]|].
      destruct IH as (y2 & L2 & H2); [lia|]. destruct (pi_surj m Hm) as (i0 & Hi0 & Ei0).
      exists (y2 ++ [nth i0 y1 0%R]). split; [rewrite app_length; cbn; lia|].
      intros i Hi Hlt. destruct (Nat.eq_dec (pi i) m) as [Em|Em].
      - assert (i = i0) as -> by (apply (su_inj _ _ _ _ _ SU); auto; congruence).
        rewrite Ei0, <- L2, nth_error_app2 by auto. rewrite Nat.sub_diag. cbn. symmetry. apply nth_error_nth'. lia.
      - rewrite nth_error_app1 by lia. apply H2; auto. lia. }
    destruct (G n (Nat.le_refl _)) as (y2 & L2 & H2). exists y2. split; [exact L2|]. split; [congruence|].
    intros i Hi. apply H2; [lia|apply pi_lt; lia].
  Qed.

  (** The rows of A have the same values at corresponding points. *)
  Lemma ax_row_same r (x1 x2 : list X) : length x1 = n -> renumbered pi x1 x2 ->
    ax_row (sp_prob sp2) r x2 = ax_row (sp_prob sp1) r x1.
  Proof.
    intros L R. unfold ax_row. rewrite !row_dot_xsum.
    rewrite <- (xsum_perm _ _ (Permutation_map _ (row_of_perm r _ _ (su_a _ _ _ _ _ SU)))).
    rewrite row_of_map, map_map. f_equal. apply map_ext_in. intros [c v] Hc. cbn [fst snd]. f_equal.
    apply nth_renumbered; [exact R|]. rewrite L.
    destruct (wf_a _ W1) as (_ & _ & _ & _ & _ & Fc). rewrite Forall_forall in Fc. apply Fc.
    unfold row_of in Hc. apply in_map_iff in Hc as ([[r' c'] v'] & Ec & Hf). cbn in Ec. injection Ec as -> ->.
    apply filter_In in Hf as [Hf _]. unfold entries in Hf. apply in_combine_l, in_combine_r in Hf. exact Hf.
  Qed.

  Lemma pi_perm : Permutation (map pi (seq 0 n)) (seq 0 n).
  Proof.
    apply NoDup_Permutation_bis.
    - assert (G : forall l, NoDup l -> (forall i, In i l -> i < n) -> NoDup (map pi l)).
      { induction l as [|a l IH]; intros ND Hl; cbn; [constructor|]. inversion ND; subst. constructor.
        - intros Hin. apply in_map_iff in Hin as (b & Eb & Hb).
          apply (su_inj _ _ _ _ _ SU) in Eb; [subst; contradiction| |]; apply Hl; cbn; auto.
        - apply IH; auto. intros i Hi. apply Hl; cbn; auto. }
      apply G; [apply seq_NoDup|]. intros i Hi. apply in_seq in Hi. lia.
    - rewrite map_length. auto.
    - intros y Hy. apply in_map_iff in Hy as (i & <- & Hi). apply in_seq in Hi. apply in_seq. pose proof (pi_lt i). lia.
  Qed.

  Lemma costs_same c1 c2 (y1 y2 : list X) : costs (sp_prob sp1) = Some c1 -> costs (sp_prob sp2) = Some c2 ->
    length y1 = n -> renumbered pi y1 y2 ->
    xsum (map (fun cx => x2 Rmult (fst cx) (snd cx)) (combine c2 y2)) = xsum (map (fun cx => x2 Rmult (fst cx) (snd cx)) (combine c1 y1)).
  Proof.
    intros E1 E2 L R. pose proof (su_c _ _ _ _ _ SU) as Hc. rewrite E1, E2 in Hc.
    assert (L1 : length c1 = n).
    { pose proof (wf_c _ W1) as Hw. destruct (sp_prob sp1); cbn [costs] in E1; try discriminate; injection E1 as <-; exact Hw. }
    assert (L2 : length c2 = n).
    { pose proof (wf_c _ W2) as Hw. rewrite (su_len _ _ _ _ _ SU) in Hw.
      destruct (sp_prob sp2); cbn [costs] in E2; try discriminate; injection E2 as <-; exact Hw. }
    rewrite (combine_seq c2 y2 n) by (auto; rewrite (proj1 R); auto). rewrite (combine_seq c1 y1 n) by auto.
    rewrite <- (xsum_perm _ _ (Permutation_map _ pi_perm)), map_map. f_equal. apply map_ext_in. intros i Hi. apply in_seq in Hi.
    rewrite (nth_renumbered pi y1 y2) by (auto; lia). rewrite (nth_renumbered pi c1 c2); [reflexivity| |lia].
    split; [congruence|]. rewrite L1. exact Hc.
  Qed.
End Solutions.

(** ** C53 Same feasible points, same objective values, same optimal points *)
Section Theorem53.
  Variables (O1 O2 : HashOrd) (st : mstate X) (m : model X) (sp1 sp2 : std_prob X) (k1 k2 : nat).
  Hypothesis Hh : hist any_op st.
  Hypothesis Hm : In m (st_models st).
  Hypothesis E1 : @std_problem X _ O1 m (st_k st) = Ok (sp1, k1).
  Hypothesis E2 : @std_problem X _ O2 m (st_k st) = Ok (sp2, k2).

  Lemma wf_of (O : HashOrd) sp k' : @std_problem X _ O m (st_k st) = Ok (sp, k') -> well_formed sp.
  Proof.
    intros E. unfold std_problem in E. pose proof E as E'. apply bind_ok in E as (r & k0 & Em & _).
    destruct (@C29_well_formed X _ O st m r k0 Hh Hm Em) as (sp' & Es & Wf). unfold std_problem in Es. rewrite E' in Es. injection Es as -> _. exact Wf.
  Qed.

  Theorem C53_solutions :
    exists tw pi, same_up_to (st_k st) sp1 sp2 tw pi /\
    (forall y2, length y2 = m_nx (base_of (sp_prob sp2)) -> exists y1 : list R, length y1 = length y2 /\ renumbered pi y1 y2) /\
    forall y1 y2, length y1 = m_nx (base_of (sp_prob sp1)) -> renumbered pi y1 y2 ->
      (feasible (sp_prob sp1) y1 <-> feasible (sp_prob sp2) y2) /\
      (forall phi, prob_value (sp_prob sp1) y1 phi <-> prob_value (sp_prob sp2) y2 phi) /\
      (optimal (sp_prob sp1) y1 <-> optimal (sp_prob sp2) y2).
  Proof.
    destruct (two_runs O1 O2 st m sp1 k1 sp2 k2 Hh Hm x_nm1 E1 E2) as (tw & pi & SU & _ & Hev & _).
    pose proof (wf_of O1 sp1 k1 E1) as W1. pose proof (wf_of O2 sp2 k2 E2) as W2.
    pose proof (@nx_len O1 st m sp1 k1 Hh Hm E1) as N1. pose proof (@nx_len O2 st m sp2 k2 Hh Hm E2) as N2.
    pose proof (su_len _ _ _ _ _ SU) as Ln.
    exists tw, pi. split; [exact SU|]. split.
    { intros y2 L. rewrite N2, Ln in L. destruct (partner1 _ _ _ _ _ SU W1 W2 y2 L) as (y1 & L1 & R). exists y1. split; [congruence|exact R]. }
    assert (Hphi : forall y1 y2, length y1 = m_nx (base_of (sp_prob sp1)) -> renumbered pi y1 y2 ->
              exists q1 q2, minlp_evaluate (base_of (sp_prob sp1)) (pt y1) = Ok q1 /\ minlp_evaluate (base_of (sp_prob sp2)) (pt y2) = Ok q2 /\
                b_f (m_bufs q2) = b_f (m_bufs q1) /\ b_phi (m_bufs q2) = b_phi (m_bufs q1)).
    { intros y1 y2 L R.
      assert (Lp : length (pt y1) = m_nx (base_of (sp_prob sp1))) by (unfold pt; rewrite map_length; exact L).
      pose proof (renumbered_map Some pi y1 y2 R) as Rp.
      destruct (Hev _ _ (pt y1) (pt y2) (ev_start _) (ev_start _) Lp Rp) as (q1 & q2 & Q1 & Q2 & Ef & Ep).
      exists q1, q2. split; [exact Q1|]. split; [exact Q2|]. split; [exact Ef|].
      destruct (costs (sp_prob sp1)) as [c1|] eqn:C1; [|apply Ep; auto].
      destruct (costs (sp_prob sp2)) as [c2|] eqn:C2; [|pose proof (su_c _ _ _ _ _ SU) as Hc; rewrite C1, C2 in Hc; destruct Hc].
      destruct (@C27_objective O1 st m sp1 k1 Hh Hm E1) as (s1 & _ & _ & P1). destruct (P1 y1 L) as (phi1 & (q1' & Q1' & <-) & _ & V1).
      destruct (@C27_objective O2 st m sp2 k2 Hh Hm E2) as (s2 & _ & _ & P2). destruct (P2 y2) as (phi2 & (q2' & Q2' & <-) & _ & V2).
      { rewrite (proj1 R), L, N1, N2. auto. }
      rewrite Q1 in Q1'. injection Q1' as <-. rewrite Q2 in Q2'. injection Q2' as <-.
      assert (V1' : b_phi (m_bufs q1) = xsum (map (fun cx => x2 Rmult (fst cx) (snd cx)) (combine c1 (pt y1)))).
      { destruct (sp_prob sp1); cbn [costs] in C1; try discriminate; injection C1 as <-; exact V1. }
      assert (V2' : b_phi (m_bufs q2) = xsum (map (fun cx => x2 Rmult (fst cx) (snd cx)) (combine c2 (pt y2)))).
      { destruct (sp_prob sp2); cbn [costs] in C2; try discriminate; injection C2 as <-; exact V2. }
      rewrite V1', V2'. apply (costs_same _ _ _ _ _ SU W1 W2); auto. congruence. }
    assert (Hval : forall y1 y2, length y1 = m_nx (base_of (sp_prob sp1)) -> renumbered pi y1 y2 ->
              forall phi, prob_value (sp_prob sp1) y1 phi <-> prob_value (sp_prob sp2) y2 phi).
    { intros y1 y2 L R phi. destruct (Hphi y1 y2 L R) as (q1 & q2 & Q1 & Q2 & _ & Ep). split; intros (q & Q & <-).
      - rewrite Q1 in Q. injection Q as <-. exists q2. auto.
      - rewrite Q2 in Q. injection Q as <-. exists q1. auto. }
    assert (Hfe : forall y1 y2, length y1 = m_nx (base_of (sp_prob sp1)) -> renumbered pi y1 y2 ->
              feasible (sp_prob sp1) y1 <-> feasible (sp_prob sp2) y2).
    { intros y1 y2 L R. destruct (Hphi y1 y2 L R) as (q1 & q2 & Q1 & Q2 & Ef & _).
      assert (Lp : length (pt y1) = length (sp_var2index sp1)) by (unfold pt; rewrite map_length; congruence).
      pose proof (renumbered_map Some pi y1 y2 R) as Rp.
      pose proof (fun r => ax_row_same _ _ _ _ _ SU W1 r (pt y1) (pt y2) Lp Rp) as Ea.
      pose proof (su_b _ _ _ _ _ SU) as Eb.
      assert (L1 : length y1 = length (sp_var2index sp1)) by congruence.
      split; intros (_ & Ha & (q & Q & Hf) & Hb).
      - split; [rewrite (proj1 R), L1, N2; auto|]. split; [|split].
        + intros r b. rewrite Eb. intros Hn. rewrite Ea. apply Ha, Hn.
        + exists q2. split; [exact Q2|]. rewrite Ef. rewrite Q1 in Q. injection Q as <-. exact Hf.
        + intros j r Hj. assert (Hlt : j < length (sp_var2index sp1)) by (rewrite <- L1, <- (proj1 R); apply nth_error_Some; congruence).
          destruct (pi_surj _ _ _ _ _ SU W1 W2 j Hlt) as (i & Hi & <-).
          rewrite (proj2 R) in Hj by congruence. destruct (Hb i r Hj) as [(l & u & El & Eu & Hl & Hu) Hz]. split.
          * exists l, u. rewrite (su_l _ _ _ _ _ SU i Hi), (su_u _ _ _ _ _ SU i Hi). auto.
          * rewrite (su_p _ _ _ _ _ SU i Hi). exact Hz.
      - split; [exact L|]. split; [|split].
        + intros r b Hn. rewrite <- Ea. apply Ha. rewrite Eb. exact Hn.
        + exists q1. split; [exact Q1|]. rewrite <- Ef. rewrite Q2 in Q. injection Q as <-. exact Hf.
        + intros i r Hi. assert (Hlt : i < length (sp_var2index sp1)) by (rewrite <- L1; apply nth_error_Some; congruence).
          destruct (Hb (pi i) r) as [(l & u & El & Eu & Hl & Hu) Hz].
          { rewrite (proj2 R); congruence. }
          rewrite (su_l _ _ _ _ _ SU i Hlt) in El. rewrite (su_u _ _ _ _ _ SU i Hlt) in Eu. rewrite (su_p _ _ _ _ _ SU i Hlt) in Hz. split; [|exact Hz].
          exists l, u. auto. }
    intros y1 y2 L R. split; [apply Hfe; auto|]. split; [apply Hval; auto|].
    assert (L1 : length y1 = length (sp_var2index sp1)) by congruence.
    split; intros (Hf & a & Ha & Ho).
    - split; [apply (Hfe y1 y2 L R); exact Hf|]. exists a. split; [apply (Hval y1 y2 L R); exact Ha|].
      intros z2 b Fz Vz. destruct (partner1 _ _ _ _ _ SU W1 W2 z2) as (z1 & Lz & Rz); [rewrite (proj1 Fz), N2; auto|].
      rewrite <- N1 in Lz. apply (Ho z1 b); [apply (Hfe z1 z2 Lz Rz); exact Fz|apply (Hval z1 z2 Lz Rz); exact Vz].
    - split; [apply (Hfe y1 y2 L R); exact Hf|]. exists a. split; [apply (Hval y1 y2 L R); exact Ha|].
      intros z1 b Fz Vz. destruct (partner2 _ _ _ _ _ SU W1 W2 z1) as (z2 & Lz & Rz); [rewrite (proj1 Fz), N1; auto|].
      pose proof (proj1 Fz) as Lz1. apply (Ho z2 b); [apply (Hfe z1 z2 Lz1 Rz); exact Fz|apply (Hval z1 z2 Lz1 Rz); exact Vz].
  Qed.
End Theorem53.

(** ** C53 Same derivatives *)
Lemma partial_of_unique F vs v l l' : partial_of F vs v l -> partial_of F vs v l' -> l = l'.
Proof.
  intros (x & Ex & D) (x' & Ex' & D'). assert (x' = x) by congruence. subst. eapply has_derivative_unique; eauto.
Qed.
Lemma second_partial_of_unique F vs v1 v2 l l' : second_partial_of F vs v1 v2 l -> second_partial_of F vs v1 v2 l' -> l = l'.
Proof.
  intros (x & d & g & Ex & Hg & Hl) (x' & d' & g' & Ex' & Hg' & Hl').
  assert (x' = x) by congruence. subst x'.
  assert (Hm : (0 < Rmin d d')%R) by (apply Rmin_pos; apply cond_pos).
  eapply uniqueness_limite; [|exact Hl'].
  apply (derivable_pt_lim_ext_loc g g' x l (mkposreal _ Hm)); auto. cbn. intros t Ht.
  assert (T1 : (Rabs (t - x) < d)%R) by (eapply Rlt_le_trans; [exact Ht|apply Rmin_l]).
  assert (T2 : (Rabs (t - x) < d')%R) by (eapply Rlt_le_trans; [exact Ht|apply Rmin_r]).
  eapply partial_of_unique; [exact (Hg t T1)|exact (Hg' t T2)].
Qed.

(** Partial derivatives go along with the variables. *)
Section Transport.
  Variables (K : list nodeX) (tw : nodeX -> nodeX).
  Hypothesis Kvar : forall v, In v K -> is_var v = true /\ is_var (tw v) = true.
  Hypothesis Kptr : forall v w, In v K -> In w K -> ptr_eq (tw v) (tw w) = ptr_eq v w.
  Definition corr (vs1 vs2 : valsX) : Prop := forall v, In v K -> evaluate vs1 v = evaluate vs2 (tw v).
  Lemma corr_upd vs1 vs2 v t : corr vs1 vs2 -> In v K -> corr (upd vs1 v t) (upd vs2 (tw v) t).
  Proof.
    intros C Hv w Hw. destruct (ptr_eq w v) eqn:P.
    - rewrite !evaluate_upd_same; auto; try apply Kvar; auto. rewrite Kptr; auto.
    - rewrite !evaluate_upd_other; auto; try apply Kvar; auto. rewrite Kptr; auto.
  Qed.
  Variables F1 F2 : valsX -> X.
  Hypothesis HF : forall vs1 vs2, corr vs1 vs2 -> F1 vs1 = F2 vs2.
  Lemma partial_tw vs1 vs2 v l : corr vs1 vs2 -> In v K -> partial_of F1 vs1 v l -> partial_of F2 vs2 (tw v) l.
  Proof.
    intros C Hv (x & Ex & D). exists x. split; [rewrite <- (C v Hv); exact Ex|].
    eapply hd_ext; [|exact D]. intros t. apply HF, corr_upd; auto.
  Qed.
  Lemma second_tw vs1 vs2 v w l : corr vs1 vs2 -> In v K -> In w K ->
    second_partial_of F1 vs1 v w l -> second_partial_of F2 vs2 (tw v) (tw w) l.
  Proof.
    intros C Hv Hw (x & d & g & Ex & Hg & Hl). exists x, d, g. split; [rewrite <- (C w Hw); exact Ex|]. split; [|exact Hl].
    intros t Ht. eapply partial_tw; [|exact Hv|exact (Hg t Ht)]. apply corr_upd; auto.
  Qed.

  Variables (v2i1 v2i2 : list (nodeX * nat)) (pi : nat -> nat).
  Hypothesis HK : map fst v2i1 = K.
  Hypothesis Hpi : forall v i, In (v, i) v2i1 -> In (tw v, pi i) v2i2.
  Lemma in_K v i : In (v, i) v2i1 -> In v K.
  Proof. intros Hi. rewrite <- HK. apply in_map_iff. exists (v, i). auto. Qed.
  Lemma gradient_same vs1 vs2 g1 g2 v i : corr vs1 vs2 -> gradient_at v2i1 F1 vs1 g1 -> gradient_at v2i2 F2 vs2 g2 ->
    In (v, i) v2i1 -> g2 (pi i) = g1 i.
  Proof.
    intros C G1 G2 Hi. destruct (G1 v i Hi) as (l & E1 & D1). destruct (G2 _ _ (Hpi v i Hi)) as (l' & E2 & D2).
    apply (partial_tw vs1 vs2) in D1; [|exact C|exact (in_K v i Hi)].
    rewrite E1, E2, (partial_of_unique _ _ _ _ _ D1 D2). reflexivity.
  Qed.
  Lemma hessian_same vs1 vs2 h1 h2 v i w j : corr vs1 vs2 -> hessian_at v2i1 F1 vs1 h1 -> hessian_at v2i2 F2 vs2 h2 ->
    In (v, i) v2i1 -> In (w, j) v2i1 ->
    coo_at h2 (max (pi i) (pi j)) (min (pi i) (pi j)) = coo_at h1 (max i j) (min i j).
  Proof.
    assert (G : forall v i w j, corr vs1 vs2 -> hessian_at v2i1 F1 vs1 h1 -> hessian_at v2i2 F2 vs2 h2 ->
              In (v, i) v2i1 -> In (w, j) v2i1 -> j <= i -> coo_at h2 (max (pi i) (pi j)) (min (pi i) (pi j)) = coo_at h1 i j).
    { clear v i w j. intros v i w j C H1 H2 Hv Hw Hle. destruct (H1 v i w j Hv Hw Hle) as (l & El & S1 & S2).
      apply (second_tw vs1 vs2) in S1; [|exact C|exact (in_K v i Hv)|exact (in_K w j Hw)].
      apply (second_tw vs1 vs2) in S2; [|exact C|exact (in_K w j Hw)|exact (in_K v i Hv)].
      destruct (Nat.le_ge_cases (pi j) (pi i)) as [Hp|Hp].
      - rewrite Nat.max_l, Nat.min_r by auto. destruct (H2 _ _ _ _ (Hpi v i Hv) (Hpi w j Hw) Hp) as (l' & El' & T1 & _).
        rewrite El, El', (second_partial_of_unique _ _ _ _ _ _ S1 T1). reflexivity.
      - rewrite Nat.max_r, Nat.min_l by auto. destruct (H2 _ _ _ _ (Hpi w j Hw) (Hpi v i Hv) Hp) as (l' & El' & T1 & _).
        rewrite El, El', (second_partial_of_unique _ _ _ _ _ _ S2 T1). reflexivity. }
    intros C H1 H2 Hv Hw. destruct (Nat.le_ge_cases j i) as [Hle|Hle].
    - rewrite (Nat.max_l i j), (Nat.min_r i j) by auto. eapply G; eauto.
    - rewrite (Nat.max_r i j), (Nat.min_l i j) by auto. rewrite Nat.max_comm, Nat.min_comm. eapply G; eauto.
  Qed.
End Transport.

(** What C30 says of one run, the nonlinear functions given by their number. *)
Lemma run_derivs (O : HashOrd) (st : mstate X) m sp k' : hist no_self_quotient st -> In m (st_models st) ->
  @std_problem X _ O m (st_k st) = Ok (sp, k') ->
  exists obj cs, @model_std X _ O m (st_k st) = Ok ((obj, cs), k') /\
  forall q (x : list R), evolves (base_of (sp_prob sp)) q -> length x = m_nx (base_of (sp_prob sp)) ->
    exists q', minlp_evaluate q (pt x) = Ok q' /\
      (obj_value m (at_point sp (pt x)) <> None ->
        gradient_at (sp_var2index sp) (obj_value m) (at_point sp (pt x)) (nth_error (b_gphi (m_bufs q'))) /\
        hessian_at (sp_var2index sp) (obj_value m) (at_point sp (pt x)) (b_hphi (m_bufs q'))) /\
      forall r z, nth_error (b_f (m_bufs q')) r = Some (Some z) ->
        exists f F h, nth_error (cs_f cs) r = Some f /\ (forall vs, evaluate vs f = F vs) /\
          gradient_at (sp_var2index sp) F (at_point sp (pt x)) (fun i => Some (coo_at (b_j (m_bufs q')) r i)) /\
          nth_error (b_h (m_bufs q')) r = Some h /\ hessian_at (sp_var2index sp) F (at_point sp (pt x)) h.
Proof.
  intros Hh Hm E.
  destruct (class_of (sp_prob sp)) eqn:Ecl.
  1,2: destruct (@placed_all O st m sp k' (hist_any _ _ Hh) Hm E) as (obj & cs & slots & Em & Hp & _);
    exists obj, cs; split; [exact Em|]; intros q x Hq Hx;
    destruct (@C30_linear O st m sp k' q x (hist_any _ _ Hh) Hm E ltac:(auto) Hq Hx) as (q' & Q & F0 & _ & _ & D);
    exists q'; split; [exact Q|]; split; [exact D|]; intros r z Hr; rewrite F0 in Hr; destruct r; discriminate.
  all: destruct (@C30_nonlinear O st m sp k' Hh Hm E ltac:(auto)) as (obj & cs & slots & Em & Hp & HE);
    exists obj, cs; split; [exact Em|]; intros q x Hq Hx; destruct (HE q x Hq Hx) as (q' & Q & EV);
    exists q'; split; [exact Q|]; split; [intros Hd; split; [apply (ev_gphi _ _ _ _ _ EV Hd)|apply (ev_hphi _ _ _ _ _ EV Hd)]|];
    intros r z Hr.
  all: assert (Hlt : r < length (flat_map fun_no slots)) by (rewrite <- (ev_nf _ _ _ _ _ EV); apply nth_error_Some; congruence);
    rewrite (pl_funs _ _ _ _ _ Hp), seq_length in Hlt;
    assert (Hin : In r (flat_map fun_no slots)) by (rewrite (pl_funs _ _ _ _ _ Hp); apply in_seq; lia);
    apply in_flat_map in Hin as (s & Hs & Hrs); destruct s as [|r0 sl|r0 sl]; cbn [fun_no In] in Hrs; try contradiction;
    destruct Hrs as [->|[]].
  all: assert (Hc : exists c, In (c, SFun r sl) (combine (md_constraints m) slots) /\ slot_ok (st_k st) cs sp c (SFun r sl)) by
    (pose proof (pl_slots _ _ _ _ _ Hp) as F2; clear -F2 Hs; induction F2; cbn in Hs; [destruct Hs|];
     destruct Hs as [->|Hs]; [exists x; cbn; auto|destruct (IHF2 Hs) as (c & A & B); exists c; cbn; auto]);
    destruct Hc as (c & Hc & _ & _ & f & Ef & Hf);
    pose proof (ev_f _ _ _ _ _ EV c r sl Hc) as Evf; rewrite Hr in Evf; injection Evf as Ev;
    assert (Hdef : fun_value c sl (at_point sp (pt x)) <> None) by (intros X0; pose proof (eq_trans Ev X0); discriminate);
    destruct (ev_h _ _ _ _ _ EV c r sl Hc Hdef) as (h & Eh & Hhs);
    exists f, (fun_value c sl), h; split; [exact Ef|]; split; [exact Hf|]; split; [exact (ev_j _ _ _ _ _ EV c r sl Hc Hdef)|]; auto.
Qed.

Section Derivs53.
  Variables (O1 O2 : HashOrd) (st : mstate X) (m : model X) (sp1 sp2 : std_prob X) (k1 k2 : nat).
  Hypothesis Hh : hist no_self_quotient st.
  Hypothesis Hm : In m (st_models st).
  Hypothesis E1 : @std_problem X _ O1 m (st_k st) = Ok (sp1, k1).
  Hypothesis E2 : @std_problem X _ O2 m (st_k st) = Ok (sp2, k2).

  Theorem C53_derivatives :
    exists tw pi, same_up_to (st_k st) sp1 sp2 tw pi /\
    forall q1 q2 y1 y2, evolves (base_of (sp_prob sp1)) q1 -> evolves (base_of (sp_prob sp2)) q2 ->
      length y1 = m_nx (base_of (sp_prob sp1)) -> renumbered pi y1 y2 ->
      exists q1' q2', minlp_evaluate q1 (pt y1) = Ok q1' /\ minlp_evaluate q2 (pt y2) = Ok q2' /\
        (obj_value m (at_point sp1 (pt y1)) <> None ->
          forall i j, i < length y1 -> j < length y1 ->
            nth_error (b_gphi (m_bufs q2')) (pi i) = nth_error (b_gphi (m_bufs q1')) i /\
            coo_at (b_hphi (m_bufs q2')) (max (pi i) (pi j)) (min (pi i) (pi j)) =
            coo_at (b_hphi (m_bufs q1')) (max i j) (min i j)) /\
        forall r z, nth_error (b_f (m_bufs q1')) r = Some (Some z) ->
          exists h1 h2, nth_error (b_h (m_bufs q1')) r = Some h1 /\ nth_error (b_h (m_bufs q2')) r = Some h2 /\
          forall i j, i < length y1 -> j < length y1 ->
            coo_at (b_j (m_bufs q2')) r (pi i) = coo_at (b_j (m_bufs q1')) r i /\
            coo_at h2 (max (pi i) (pi j)) (min (pi i) (pi j)) = coo_at h1 (max i j) (min i j).
  Proof.
    pose proof (hist_any _ _ Hh) as Hany.
    destruct (two_runs O1 O2 st m sp1 k1 sp2 k2 Hany Hm x_nm1 E1 E2) as (tw & pi & SU & _ & Hev & Hptr & Hfs).
    pose proof (@nx_len O1 st m sp1 k1 Hany Hm E1) as N1. pose proof (@nx_len O2 st m sp2 k2 Hany Hm E2) as N2.
    destruct (run_derivs O1 st m sp1 k1 Hh Hm E1) as (obj1 & cs1 & Em1 & R1).
    destruct (run_derivs O2 st m sp2 k2 Hh Hm E2) as (obj2 & cs2 & Em2 & R2).
    specialize (Hfs obj1 cs1 obj2 cs2 Em1 Em2).
    destruct (@C24_bijection X _ O1 st m sp1 k1 Hany Hm E1 x_nm1) as (B1 & _ & HA & HB & _).
    exists tw, pi. split; [exact SU|]. intros q1 q2 y1 y2 V1 V2 L R.
    assert (L2 : length y2 = m_nx (base_of (sp_prob sp2))) by (rewrite (proj1 R), L, N1, N2; symmetry; apply (su_len _ _ _ _ _ SU)).
    destruct (R1 q1 y1 V1 L) as (q1' & Q1 & D1 & F1). destruct (R2 q2 y2 V2 L2) as (q2' & Q2 & D2 & F2).
    exists q1', q2'. split; [exact Q1|]. split; [exact Q2|].
    assert (Lp : length (pt y1) = m_nx (base_of (sp_prob sp1))) by (unfold pt; rewrite map_length; exact L).
    pose proof (renumbered_map Some pi y1 y2 R) as Rp.
    set (K := map fst (sp_var2index sp1)) in *.
    assert (Kvar : forall v, In v K -> is_var v = true /\ is_var (tw v) = true).
    { assert (Gv : forall (O : HashOrd) sp k' v, @std_problem X _ O m (st_k st) = Ok (sp, k') -> In v (map fst (sp_var2index sp)) -> is_var v = true).
      { intros O sp k' v E Hv. destruct (@C24_bijection X _ O st m sp k' Hany Hm E x_nm1) as (_ & _ & _ & HB' & _).
        destruct (HB' v Hv) as [Hmv|(_ & nm & ->)]; [|reflexivity].
        destruct Hmv as [Ho|(c & _ & [Ho|Ho])]; try apply Ho. destruct (md_objective m); try apply Ho. destruct Ho. }
      intros v Hv. split; [exact (Gv O1 sp1 k1 v E1 Hv)|]. apply (Gv O2 sp2 k2 _ E2).
      apply in_map_iff in Hv as ([w i] & <- & Hv). apply in_map_iff. exists (tw w, pi i). split; [reflexivity|]. apply (su_var _ _ _ _ _ SU w i Hv). }
    assert (Hcorr : corr K tw (at_point sp1 (pt y1)) (at_point sp2 (pt y2))).
    { intros v Hv. apply in_map_iff in Hv as ([w i] & <- & Hv). cbn [fst].
      rewrite (@value_at O1 st m sp1 k1 Hany Hm E1 _ w i Hv).
      rewrite (@value_at O2 st m sp2 k2 Hany Hm E2 _ (tw w) (pi i)) by (apply (su_var _ _ _ _ _ SU w i Hv)).
      symmetry. apply nth_renumbered; [exact Rp|]. rewrite Lp.
      assert (Hi : In i (map snd (sp_var2index sp1))) by (apply in_map_iff; exists (w, i); auto). rewrite B1 in Hi. apply in_seq in Hi. lia. }
    assert (Hpi : forall v i, In (v, i) (sp_var2index sp1) -> In (tw v, pi i) (sp_var2index sp2)) by (intros v i Hv; apply (su_var _ _ _ _ _ SU v i Hv)).
    assert (Hold : forall v, model_var m v -> tw v = v).
    { intros v Hv. apply (su_old _ _ _ _ _ SU). destruct (hist_inv false st Hany) as (S & Hi).
      pose proof (hi_models _ _ _ Hi) as G. rewrite Forall_forall in G. destruct (G m Hm) as (Mi & _ & _). clear G.
      pose proof (hi_world _ _ _ Hi) as HW. apply (w_lt _ _ _ HW).
      destruct Hv as [Hv|(c & Hc & Hv)].
      - pose proof (mi_obj _ _ Mi) as Ho. destruct (md_objective m); [| |destruct Hv]; destruct Hv as [_ Hv]; exact (world_sub _ _ _ _ _ HW Ho Hv).
      - pose proof (mi_cons _ _ Mi) as Hcs. rewrite Forall_forall in Hcs. destruct (Hcs c Hc) as [Sl Sr].
        destruct Hv as [[_ Hv]|[_ Hv]]; [exact (world_sub _ _ _ _ _ HW Sl Hv)|exact (world_sub _ _ _ _ _ HW Sr Hv)]. }
    assert (Hobj : forall vs1 vs2, corr K tw vs1 vs2 -> obj_value m vs1 = obj_value m vs2).
    { intros vs1 vs2 C.
      assert (G : forall f, (forall v, occurs v f -> model_var m v) -> evaluate vs1 f = evaluate vs2 f).
      { intros f Hf. apply evaluate_ext. intros v Hv. pose proof (Hf v Hv) as Hmv. rewrite (C v (HA v Hmv)), (Hold v Hmv). reflexivity. }
      unfold obj_value. destruct (md_objective m) as [f|f|] eqn:Eo; [|f_equal|reflexivity]; apply G; intros v Hv; left; rewrite Eo; exact Hv. }
    assert (Hidx : forall i, i < length y1 -> exists v, In (v, i) (sp_var2index sp1)) by (intros i Hi; apply (@var_at O1 st m sp1 k1 Hany Hm E1); lia).
    split.
    - intros Hd i j Hi Hj. destruct (Hidx i Hi) as (v & Hv). destruct (Hidx j Hj) as (w & Hw).
      destruct (D1 Hd) as [G1 H1]. destruct D2 as [G2 H2]; [rewrite <- (Hobj _ _ Hcorr); exact Hd|]. split.
      + exact (gradient_same K tw Kvar Hptr _ _ Hobj _ _ pi eq_refl Hpi _ _ _ _ v i Hcorr G1 G2 Hv).
      + exact (hessian_same K tw Kvar Hptr _ _ Hobj _ _ pi eq_refl Hpi _ _ _ _ v i w j Hcorr H1 H2 Hv Hw).
    - intros r z Hz. destruct (Hev q1 q2 (pt y1) (pt y2) V1 V2 Lp Rp) as (q1'' & q2'' & Q1' & Q2' & Ef & _).
      rewrite Q1 in Q1'. injection Q1' as <-. rewrite Q2 in Q2'. injection Q2' as <-.
      destruct (F1 r z Hz) as (f1 & G1 & h1 & Ef1 & Hf1 & J1 & Eh1 & Hs1).
      destruct (F2 r z) as (f2 & G2 & h2 & Ef2 & Hf2 & J2 & Eh2 & Hs2); [rewrite Ef; exact Hz|].
      assert (HF : forall vs1 vs2, corr K tw vs1 vs2 -> G1 vs1 = G2 vs2).
      { intros vs1 vs2 C. rewrite <- Hf1, <- Hf2.
        assert (P : forall l1 l2, Forall2 (fun f1 f2 => forall vs1 vs2 : valsX, (forall v, In v K -> evaluate vs1 v = evaluate vs2 (tw v)) -> evaluate vs1 f1 = evaluate vs2 f2) l1 l2 ->
                  forall r, nth_error l1 r = Some f1 -> nth_error l2 r = Some f2 -> evaluate vs1 f1 = evaluate vs2 f2).
        { clear -C. induction 1 as [|a b l1 l2 Hab _ IH]; intros [|r]; cbn; try discriminate; [|apply IH].
          intros X1 X2. injection X1 as <-. injection X2 as <-. apply Hab, C. }
        exact (P _ _ Hfs r Ef1 Ef2). }
      exists h1, h2. split; [exact Eh1|]. split; [exact Eh2|]. intros i j Hi Hj.
      destruct (Hidx i Hi) as (v & Hv). destruct (Hidx j Hj) as (w & Hw). split.
      + pose proof (gradient_same K tw Kvar Hptr _ _ HF _ _ pi eq_refl Hpi _ _ _ _ v i Hcorr J1 J2 Hv) as G. cbn in G. congruence.
      + exact (hessian_same K tw Kvar Hptr _ _ HF _ _ pi eq_refl Hpi _ _ _ _ v i w j Hcorr Hs1 Hs2 Hv Hw).
  Qed.
End Derivs53.

(** ** C53 Whether a linear model can be standardised does not depend on the order *)
Lemma sub_any {T} `{Num T} (a b : node T) k k' : (exists e j, sub_nn a b k = Ok (e, j)) -> exists e j, sub_nn a b k' = Ok (e, j).
Proof.
  intros (e & j & E). pose proof (sub_nn_sim (fun i => i) a b a b eq_refl eq_refl k k') as Hs. rewrite E in Hs.
  destruct (sub_nn a b k') as [[e' j']|p]; [eauto|destruct Hs].
Qed.
Lemma parts_ok {T} `{Num T} (O : HashOrd) nsq (cs : list (constraint T)) : forall k S ar jr,
  world nsq k S -> Forall (fun c => S (clhs c) /\ S (crhs c)) cs -> neqb (@nm1 T _) n0 = false ->
  Forall (fun c => p_affine (std_properties (clhs c)) = true /\ p_affine (std_properties (crhs c)) = true) cs ->
  (exists ps ar' jr' k', parts cs ar jr k ps ar' jr' k') <->
  Forall (fun c => exists e j, sub_nn (clhs c) (crhs c) 0 = Ok (e, j)) cs.
Proof.
  induction cs as [|c cs IH]; intros k S ar jr HW HS Hnm HA.
  - split; [constructor|]. intros _. do 4 eexists. constructor.
  - inversion HS as [|? ? [Sl Sr] HS']; subst. inversion HA as [|? ? [Al Ar] HA']; subst.
    assert (Hok : (exists r k1, constr_std c ar jr k = Ok (r, k1)) <-> exists e j, sub_nn (clhs c) (crhs c) 0 = Ok (e, j)).
    { split.
      - intros (r & k1 & E). apply sub_any with (k := k). destruct (sub_nn (clhs c) (crhs c) k) as [[e j]|p] eqn:Es; [eauto|].
        assert (Ep : constr_std c ar jr k = Panic p) by (apply (constr_std_panic nsq k S c ar jr p Hnm HW Sl Sr); left; exact Es).
        rewrite E in Ep. discriminate.
      - intros Hs. apply sub_any with (k' := k) in Hs as (e & j & Es).
        apply (constr_std_affine nsq k S c ar jr e j Hnm HW Sl Sr Es).
        change (affb e = true). rewrite (sub_nn_affb nsq k S _ _ _ _ _ HW Sl Sr Hnm Es). unfold affb. rewrite Al, Ar. reflexivity. }
    split.
    + intros (ps & ar' & jr' & k' & HP). inversion HP as [|? ? ? ? ? p ar1 jr1 k1 ps' ? ? ? E HP']; subst. constructor.
      * apply Hok. eauto.
      * destruct (constr_std_in nsq k S c ar jr p ar1 jr1 k1 HW Sl Sr E) as (_ & S1 & I1 & W1 & _).
        apply (IH k1 S1 ar1 jr1 W1); auto. { eapply Forall_impl; [|exact HS']. intros c' []; auto. } eauto.
    + intros HF. inversion HF as [|? ? Hc HF']; subst. apply Hok in Hc as ([[p ar1] jr1] & k1 & E).
      destruct (constr_std_in nsq k S c ar jr p ar1 jr1 k1 HW Sl Sr E) as (_ & S1 & I1 & W1 & _).
      destruct (proj2 (IH k1 S1 ar1 jr1 W1 ltac:(eapply Forall_impl; [|exact HS']; intros c' []; auto) Hnm HA') HF') as (ps & ar' & jr' & k' & HP).
      do 4 eexists. econstructor; eauto.
Qed.

(** A linear model is standardised unless subtracting the sides of one of its
    constraints panics. *)
Theorem C53_affine_panics {T} `{Num T} (O : HashOrd) (st : mstate T) m :
  hist any_op st -> In m (st_models st) -> neqb (@nm1 T _) n0 = false -> all_affine m ->
  (exists sp k', @std_problem T _ O m (st_k st) = Ok (sp, k')) <->
  Forall (fun c => exists e j, sub_nn (clhs c) (crhs c) 0 = Ok (e, j)) (md_constraints m).
Proof.
  intros Hh Hm Hnm [Ao Ac]. destruct (hist_inv false st Hh) as (S & Hi).
  pose proof (hi_models _ _ _ Hi) as G. rewrite Forall_forall in G. destruct (G m Hm) as (Mi & _ & _). clear G.
  pose proof (hi_world _ _ _ Hi) as HW.
  assert (Ac' : Forall (fun c => p_affine (std_properties (clhs c)) = true /\ p_affine (std_properties (crhs c)) = true) (md_constraints m))
    by (apply Forall_forall; exact Ac).
  assert (Ho : exists obj ko, obj_std (md_objective m) (st_k st) = Ok (obj, ko)).
  { destruct (obj_std (md_objective m) (st_k st)) as [[obj ko]|p] eqn:E; [eauto|exfalso].
    apply obj_std_panic in E as [E|(eo & ke & E1 & E)].
    - destruct Mi as [Mo _ _]. destruct (md_objective m) as [f|f|]; cbn [obj_exp] in E; try discriminate.
      destruct (neg_n_tot f (world_sums2 false _ S f HW Mo) (st_k st)) as (r & k' & Er). congruence.
    - destruct (obj_exp_grows false _ S _ HW (mi_obj _ _ Mi) _ _ E1) as (_ & S1 & _ & W1 & Se).
      destruct (std_components_panic false ke S1 eo p W1 Se E) as [_ Ha].
      change (affb eo = false) in Ha. rewrite (obj_exp_affb false _ S _ _ _ _ HW (mi_obj _ _ Mi) Hnm E1) in Ha.
      unfold obj_affine, affb in Ha. destruct (md_objective m); congruence. }
  destruct Ho as (obj & ko & Eo). pose proof Eo as Eo'. apply obj_std_ok in Eo' as (eo & ke & E1 & Eo').
  destruct (obj_exp_grows false _ S _ HW (mi_obj _ _ Mi) _ _ E1) as (_ & S1 & I1 & W1 & Se).
  destruct (std_components_grows false ke S1 eo W1 Se _ _ Eo') as (_ & S2 & I2 & W2 & _).
  assert (Hc2 : Forall (fun c => S2 (clhs c) /\ S2 (crhs c)) (md_constraints m)).
  { eapply Forall_impl; [|apply mi_cons with (1 := Mi)]. intros c []; auto. }
  rewrite <- (parts_ok O false (md_constraints m) ko S2 0 0 W2 Hc2 Hnm Ac'). split.
  - intros (sp & k' & E). unfold std_problem in E. apply bind_ok in E as ([ob cs] & k1 & Em & _). unfold model_std in Em.
    apply bind_ok in Em as (ob' & ko' & Eo2 & Em). rewrite Eo in Eo2. injection Eo2 as <- <-.
    apply bind_ok in Em as (r & k2 & Ec & _). apply constrs_std_parts in Ec as (ps & ar' & jr' & HP & _). eauto.
  - intros (ps & ar' & jr' & k' & HP).
    assert (Em : model_std m (st_k st) = Ok ((obj, cat ps), k')).
    { unfold model_std. apply bind_ok. exists obj, ko. split; [exact Eo|]. apply bind_ok. exists (cat ps, ar', jr'), k'. split; [|reflexivity].
      apply constrs_std_parts. eauto. }
    destruct (@C29_well_formed T _ O st m _ k' Hh Hm Em) as (sp & Es & _). eauto.
Qed.
Corollary C53_affine_same {T} `{Num T} (O1 O2 : HashOrd) (st : mstate T) m :
  hist any_op st -> In m (st_models st) -> neqb (@nm1 T _) n0 = false -> all_affine m ->
  (exists sp k', @std_problem T _ O1 m (st_k st) = Ok (sp, k')) <-> (exists sp k', @std_problem T _ O2 m (st_k st) = Ok (sp, k')).
Proof. intros Hh Hm Hnm Ha. rewrite (C53_affine_panics O1), (C53_affine_panics O2) by auto. reflexivity. Qed.

(** ** C53 Refuted for panics: whether a nonlinear model can be standardised
    depends on the order.  Minimise (5y - 5y + yz) x. *)
From Coq Require Import Floats.SpecFloat.
Section Refuted.
  Local Existing Instance NumF0.
  Definition pprog : list (call F) :=
    [CExpr (OVar "x" VarContinuous); CExpr (OVar "y" VarContinuous); CExpr (OVar "z" VarContinuous);
     CExpr (OMulNS 1 (flit 5)); CExpr (OMulNS 1 (flit (-5))); CExpr (OMulNN 1 2); CExpr (OAddNN 3 4); CExpr (OAddNN 6 5);
     CExpr (OMulNN 0 7); CNewModel; CSetObj 0 Minimise 8]%string.
  Definition empty_model : model F := mk_model EmptyObj [] [] None [] [].
  Definition pst : mstate F := Eval vm_compute in match @mrun F NumF0 ord_id pprog mstart with Some st => st | None => mstart end.
  Definition mask_of (r : res (std_prob F * nat)) : option (list bool) :=
    match r with Ok (sp, _) => Some (m_p (base_of (sp_prob sp))) | Panic _ => None end.
  Lemma mask_ok r l : mask_of r = Some l -> exists sp k', r = Ok (sp, k') /\ m_p (base_of (sp_prob sp)) = l.
  Proof. destruct r as [[sp k']|p]; cbn; intros E; [|discriminate]. injection E as <-. eauto. Qed.
  Definition panic_of (r : res (std_prob F * nat)) : option panic := match r with Ok _ => None | Panic p => Some p end.
  Lemma panic_ok r p : panic_of r = Some p -> r = Panic p.
  Proof. destruct r; cbn; intros E; [discriminate|]. injection E as <-. reflexivity. Qed.
  Theorem C53_panic_refuted : exists st m, @hist F NumF0 any_op st /\ In m (st_models st) /\
    @std_problem F _ ord_id m (st_k st) = Panic PAssert /\
    exists sp k', @std_problem F _ ord_rev m (st_k st) = Ok (sp, k').
  Proof.
    assert (Hh : @hist F NumF0 any_op pst) by (apply (@mrun_hist F NumF0 ord_id pprog mstart); [constructor|vm_compute; reflexivity]).
    set (m := nth 0 (st_models pst) empty_model).
    exists pst, m. split; [exact Hh|]. split; [left; reflexivity|]. split; [apply panic_ok; vm_compute; reflexivity|].
    destruct (mask_ok (@std_problem F _ ord_rev m (st_k pst)) [false; false; false]) as (sp & k' & E & _); [vm_compute; reflexivity|exists sp, k'; exact E].
  Qed.

  (** The hypotheses of C53_same_problem are met by a model where the order
      makes a difference: two variables have the same name. *)
  Definition hprog : list (call F) :=
    [CExpr (OVar "x" VarContinuous); CExpr (OVar "x" VarInteger); CExpr (OMulNN 0 0); CExpr (OAddNN 2 1);
     CCmpNS 3 LessEqual (flit 4) "c"; CNewModel; CSetObj 0 Minimise 3; CAddConstr 0 0]%string.
  Definition hst : mstate F := Eval vm_compute in match @mrun F NumF0 ord_id hprog mstart with Some st => st | None => mstart end.
  Example C53_example : exists st m sp1 k1 sp2 k2, @hist F NumF0 any_op st /\ In m (st_models st) /\
    neqb (@nm1 F _) n0 = false /\
    @std_problem F _ ord_id m (st_k st) = Ok (sp1, k1) /\ @std_problem F _ ord_rev m (st_k st) = Ok (sp2, k2) /\
    m_p (base_of (sp_prob sp1)) = [false; false; true] /\ m_p (base_of (sp_prob sp2)) = [false; true; false].
  Proof.
    assert (Hh : @hist F NumF0 any_op hst) by (apply (@mrun_hist F NumF0 ord_id hprog mstart); [constructor|vm_compute; reflexivity]).
    set (m := nth 0 (st_models hst) empty_model).
    destruct (mask_ok (@std_problem F _ ord_id m (st_k hst)) [false; false; true]) as (sp1 & k1 & E1 & P1); [vm_compute; reflexivity|].
    destruct (mask_ok (@std_problem F _ ord_rev m (st_k hst)) [false; true; false]) as (sp2 & k2 & E2 & P2); [vm_compute; reflexivity|].
    exists hst, m, sp1, k1, sp2, k2.
    split; [exact Hh|]. split; [left; reflexivity|]. split; [reflexivity|]. split; [exact E1|]. split; [exact E2|]. split; [exact P1|exact P2].
  Qed.
End Refuted.

(** The hypotheses of C53_solutions and C53_affine_same are met. *)
Example C53_example_real (O : HashOrd) : exists sp1 k1 sp2 k2, @hist X _ any_op (lst 1) /\ In (lm 1) (st_models (lst 1)) /\ all_affine (lm 1) /\
  @std_problem X _ ord_id (lm 1) (st_k (lst 1)) = Ok (sp1, k1) /\ @std_problem X _ O (lm 1) (st_k (lst 1)) = Ok (sp2, k2).
Proof.
  assert (Hin : In (lm 1) (st_models (lst 1))) by (cbn; auto).
  assert (Ha : all_affine (lm 1)) by (split; [reflexivity|intros c [<-|[]]; split; reflexivity]).
  destruct (lm_std 1 ltac:(lra)) as (sp & k' & E).
  destruct (proj1 (C53_affine_same ord_id O (lst 1) (lm 1) (lst_hist 1) Hin x_nm1 Ha)) as (sp2 & k2 & E2); [eauto|].
  exists sp, k', sp2, k2. split; [apply lst_hist|]. auto.
Qed.
