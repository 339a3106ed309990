(** Lemmas for C63: integer linear models and the LP file. *)
From Verif Require Import Base Num Node NodeInd NodeDiff NodeStd Constraint Matrix Problem ModelStd Model
     ExprSpec EvalProofs DiffProofs Api ApiProofs ModelApi HistProofs HistAff ConstrSpec ModelSpec MatSpec MatrixProofs SumDupProofs PointProofs EvalRun SlotProofs
     StdMain World StdPropProofs PartsProofs BuildProofs BuildMain ConstrProofs Properties_Constr StdFacts Properties_Std Properties_Feas EvalSpec Properties_Eval Properties_Matrix
     Text SolverBase LpFile FmtProofs FloatProofs Properties_Num LpSpec LpProofs Properties_Lp Properties_Sol Properties_Cmd Properties_End
     FloatOps ExactSpec ExactSim ExactF ExactHist Properties_Exact Properties_ExactModel SparseProofs Properties_Sparse LpModelSpec.
From Coq Require Import Reals Lra Floats.SpecFloat NArith.
Local Open Scope list_scope.

Lemma text_top : (text_limit <= exact_limit)%N.
Proof. vm_compute. discriminate. Qed.
Lemma text_big : (100000000 <= text_limit)%N.
Proof. vm_compute. discriminate. Qed.
#[local] Notation tl := (rlim text_limit).

(** *** Integers of at most eleven digits are printed exactly *)
Definition small (v : F) : Prop := exists z, integer v z /\ (Z.abs_N z <= text_limit)%N.
Lemma small_finite v : small v -> finite v.
Proof. intros (z & (_ & Hf & _) & _). destruct v; try discriminate Hf; exact I. Qed.
Lemma small_prints v : small v -> prints_as v v.
Proof.
  intros (z & (V & Hf & Hv) & Hz). unfold prints_as. destruct v as [s|s| |s m e]; try discriminate Hf; [apply C44_zero|].
  assert (Ev : fval (S754_finite s m e) = dval s (Z.abs_N z) 0).
  { assert (P : (0 < IZR (Z.pos m) * powerRZ 2 e)%R) by (apply Rmult_lt_0_compat; [apply IZR_lt; lia|apply p2_pos]).
    unfold dval, NR. rewrite powerRZ_O, Rmult_1_r, N2Z.inj_abs_N, abs_IZR, <- Hv. cbn [fval]. destruct s; cbn [sgn].
    - rewrite Rabs_Ropp, Rabs_pos_eq by lra. reflexivity.
    - rewrite Rabs_pos_eq by lra. reflexivity. }
  destruct (near_text s m e (Z.abs_N z) 0) as (n & d & Ep & Hn & En).
  - unfold text_limit in Hz. change (10 ^ 11)%N with 100000000000%N. lia.
  - rewrite Ev, Rminus_eq_0, Rabs_R0. apply Rmult_le_pos; [|apply Rabs_pos]. left. apply Rinv_0_lt_compat. lra.
  - rewrite (parse_f64_dec _ _ _ _ Ep). f_equal. destruct n as [|q]; [congruence|].
    destruct (round_dec_correct s q d) as (V' & C' & _). rewrite En, <- Ev in C'. destruct (C' (fval_in_f64 _ V)) as (D1 & D2 & D3).
    rewrite (RN_valid _ V) in D1. apply fval_inj; auto. 
Qed.

(** *** The data of the standard problem are such integers *)
Lemma hist_widen (N1 : Num F) l1 l2 st ws : (l1 <= l2)%N -> @int_hist_within N1 l1 st ws -> @int_hist_within N1 l2 st ws.
Proof.
  intros Hl. induction 1 as [|HO st ws c st' ws' Hn Hh IH Hc E]; [apply ih_start|]. eapply (@ih_step N1 l2 HO); [exact Hn|exact IH| |exact E].
  destruct Hc; econstructor; eauto; lia.
Qed.
Lemma rel_small x y : rel' tl x y -> small x.
Proof. intros (w & Hw & z & Hz & _ & Hi). exists z. split; [exact Hi|]. eapply N.le_trans; eauto. Qed.
Lemma rels_small l l' : Forall2 (rel' tl) l l' -> Forall small l.
Proof. induction 1; constructor; eauto using rel_small. Qed.
Record small_data (p : problem F) : Prop := {
  sm_c : Forall small (lin_c p);
  sm_a : Forall small (coo_data (m_a (base_of p)));
  sm_b : Forall small (m_b (base_of p));
  sm_l : Forall small (m_l (base_of p));
  sm_u : Forall small (m_u (base_of p)) }.
Lemma rprob_small p p' : RProb tl xrel p p' -> small_data p.
Proof.
  intros Hp. destruct p as [q|q|q|q], p' as [q'|q'|q'|q']; cbn [RProb] in Hp; try contradiction.
  - destruct Hp as [Hc [_ (_ & _ & _ & _ & Ha) Hb Hl Hu _]]. constructor; cbn [lin_c base_of]; eapply rels_small; eauto.
  - destruct Hp as [Hc [[_ (_ & _ & _ & _ & Ha) Hb Hl Hu _] _]]. constructor; cbn [lin_c base_of]; eapply rels_small; eauto.
Qed.

(** *** The coefficients of a matrix without repeated positions *)
Section Rows.
  Variables fsin fcos : F -> F.
  Notation coef_at := (coefficient fsin fcos).
  Local Open Scope R_scope.
  Lemma rowR_total (a : coo F) r x : rowR a r x = total (fun e => fval (snd e) * nth (fst e) x 0) (row_of r (entries a)).
  Proof.
    unfold rowR, total, row_of. induction (filter (fun e => (fst (fst e) =? r)%nat) (entries a)) as [|e l IH]; [reflexivity|]. cbn [map fold_right fst snd]. rewrite IH. reflexivity.
  Qed.
  Lemma row_nodup (a : coo F) r : NoDup (positions a) -> NoDup (map fst (row_of r (entries a))).
  Proof.
    unfold positions, row_of. rewrite map_map. cbn [fst]. induction (entries a) as [|[[i j] v] l IH]; intros Hn; [constructor|].
    cbn [map fst] in Hn. apply NoDup_cons_iff in Hn as [Hx Hn]. cbn [filter fst]. destruct (Nat.eqb_spec i r) as [->|]; [|apply IH; exact Hn].
    cbn [map fst snd]. constructor; [|apply IH; exact Hn]. intros Hin. apply Hx. apply in_map_iff in Hin as ([[i' j'] v'] & Ej & Hin). cbn in Ej. subst j'.
    apply filter_In in Hin as [Hin Hi]. cbn in Hi. apply Nat.eqb_eq in Hi as ->. apply in_map_iff. exists ((r, j), v'). auto.
  Qed.
  Lemma at_col_unique (row : list (nat * F)) j v : NoDup (map fst row) -> In (j, v) row -> at_col j row = [v].
  Proof.
    unfold at_col. induction row as [|[c w] row IH]; intros Hn Hin; [destruct Hin|]. cbn [map fst] in Hn. apply NoDup_cons_iff in Hn as [Hx Hn].
    destruct Hin as [Hin|Hin].
    - injection Hin as -> ->. cbn [filter fst]. rewrite Nat.eqb_refl. cbn [map snd]. f_equal. rewrite <- (map_map (fun e => e) snd). clear IH Hn.
      induction row as [|[c' w'] row IH]; [reflexivity|]. cbn [filter fst]. destruct (Nat.eqb_spec c' j) as [->|]; [exfalso; apply Hx; left; reflexivity|].
      apply IH. intros H. apply Hx. right. exact H.
    - cbn [filter fst]. destruct (Nat.eqb_spec c j) as [->|]; [exfalso; apply Hx; apply in_map_iff; exists (j, v); auto|]. apply IH; auto.
  Qed.
  Lemma coef_entry (a : coo F) r j v : NoDup (positions a) -> In (j, v) (row_of r (entries a)) -> coef_at a r j = v.
  Proof. intros Hn Hin. unfold coefficient. rewrite (at_col_unique _ j v (row_nodup a r Hn) Hin). reflexivity. Qed.
  Lemma coef_cases (a : coo F) r j : NoDup (positions a) ->
    coef_at a r j = S754_zero false \/ In (coef_at a r j) (coo_data a).
  Proof.
    intros Hn. destruct (in_dec Nat.eq_dec j (map fst (row_of r (entries a)))) as [Hi|Hi].
    - right. apply in_map_iff in Hi as ([j' v] & <- & Hin). cbn [fst]. rewrite (coef_entry a r j' v Hn Hin). unfold row_of in Hin. apply in_map_iff in Hin as ([ij w] & Ee & Hf).
      cbn [fst snd] in Ee. injection Ee as _ ->. apply filter_In in Hf as [Hf _]. unfold entries in Hf. apply in_combine_r in Hf. exact Hf.
    - left. rewrite absent_coef by exact Hi. reflexivity.
  Qed.
  Lemma zero_small : small (S754_zero false).
  Proof. exists 0%Z. split; [split; [reflexivity|split; reflexivity]|vm_compute; discriminate]. Qed.
  Lemma coef_small (a : coo F) r j : NoDup (positions a) -> Forall small (coo_data a) -> small (coef_at a r j).
  Proof.
    intros Hn Ha. destruct (coef_cases a r j Hn) as [->|Hin]; [exact zero_small|]. rewrite Forall_forall in Ha. auto.
  Qed.
  Lemma rowR_coefs (a : coo F) r x n : NoDup (positions a) -> (forall i j v, In (i, j, v) (entries a) -> (j < n)%nat) ->
    rowR a r x = total (fun j => fval (coef_at a r j) * nth j x 0) (seq 0 n).
  Proof.
    intros Hn Hin. rewrite rowR_total.
    rewrite (total_ext _ (fun e => fval (coef_at a r (fst e)) * nth (fst e) x 0)).
    2:{ intros [j v] Hj. cbn [fst snd]. rewrite (coef_entry a r j v Hn Hj). reflexivity. }
    rewrite <- (total_map (fun j => fval (coef_at a r j) * nth j x 0) fst). apply total_sub.
    - apply row_nodup. exact Hn.
    - intros j Hj. apply in_map_iff in Hj as ([j' v] & <- & Hj). unfold row_of in Hj. apply in_map_iff in Hj as ([[i' j''] w] & Ee & Hf).
      cbn [fst snd] in Ee. injection Ee as -> ->. apply filter_In in Hf as [Hf _]. cbn [fst]. exact (Hin _ _ _ Hf).
    - intros j Hj. rewrite absent_coef by exact Hj. cbn. apply Rmult_0_l.
  Qed.
  (** Either some coefficient of a row is not zero, or the row is zero everywhere. *)
  Lemma row_dec (a : coo F) r n : NoDup (positions a) -> Forall small (coo_data a) -> (forall i j v, In (i, j, v) (entries a) -> (j < n)%nat) ->
    (exists j, not_zero (coef_at a r j) = true) \/ forall x, rowR a r x = 0.
  Proof.
    intros Hn Ha Hin. destruct (existsb (fun j => not_zero (coef_at a r j)) (seq 0 n)) eqn:Ex.
    - left. apply existsb_exists in Ex as (j & _ & Hj). eauto.
    - right. intros x. rewrite (rowR_coefs a r x n Hn Hin). apply total_zero. intros j Hj.
      assert (Hz : not_zero (coef_at a r j) = false).
      { destruct (not_zero (coef_at a r j)) eqn:En; [|reflexivity]. rewrite <- Ex. symmetry. apply existsb_exists. eauto. }
      rewrite zero_val; [apply Rmult_0_l| |exact Hz]. apply small_finite, coef_small; auto.
  Qed.
End Rows.

(** *** In exact arithmetic *)
Lemma xsum_parts (l : list X) r : xsum l = Some r -> Forall (fun x => exists z, x = Some z) l.
Proof.
  revert r. induction l as [|x l IH]; intros r E; [constructor|]. rewrite xsum_cons in E. destruct x as [a|]; [|discriminate]. destruct (xsum l) as [b|] eqn:El; [|discriminate].
  constructor; [eauto|]. eapply IH. reflexivity.
Qed.
(** An expression has a value only if all its variables have one. *)
Lemma defined_vars (vs : valsX) v n r : evaluate vs n = Some r -> occurs v n -> exists s, evaluate vs v = Some s.
Proof.
  intros E [Hv Hs]. revert r E. induction Hs as [n|s c n Hin Hs IH]; intros r E; [eauto|]. specialize (IH Hv).
  assert (G : exists z, evaluate vs c = Some z); [|destruct G as [z Ez]; eauto].
  destruct n as [i w|i st kd|i args|i a|i a b|i a b|i a]; cbn [arguments] in Hin; try contradiction.
  - rewrite evaluate_add in E. apply xsum_parts in E. rewrite Forall_map, Forall_forall in E. exact (E c Hin).
  - destruct Hin as [<-|[]]. cbn [evaluate] in E. destruct (evaluate vs a); [eauto|discriminate].
  - cbn [evaluate] in E. destruct (evaluate vs a) as [za|] eqn:Ea; [|discriminate]. destruct (evaluate vs b) as [zb|] eqn:Eb; [|cbn in E; discriminate].
    destruct Hin as [<-|[<-|[]]]; eauto.
  - cbn [evaluate] in E. destruct (evaluate vs a) as [za|] eqn:Ea; [|discriminate]. destruct (evaluate vs b) as [zb|] eqn:Eb; [|cbn in E; discriminate].
    destruct Hin as [<-|[<-|[]]]; eauto.
  - destruct Hin as [<-|[]]. cbn [evaluate] in E. destruct (evaluate vs a); [eauto|discriminate].
Qed.

Section RowsX.
  Context (HO : HashOrd) (st : mstate X) (m : model X) (sp : std_prob X) (k' : nat).
  Hypothesis Hh : hist any_op st.
  Hypothesis Hm : In m (st_models st).
  Hypothesis E : std_problem m (st_k st) = Ok (sp, k').
  Lemma old_vars c v : In c (md_constraints m) -> occurs v (clhs c) \/ occurs v (crhs c) -> (nid v < st_k st)%nat.
  Proof.
    intros Hin Hv. destruct (hist_run st m sp k' Hh Hm E) as (S & obj & S' & eo & ke & ko & ps & ar & jr & uc & lc & Hi & Mi & HW & _).
    pose proof (mi_cons _ _ Mi) as G. rewrite Forall_forall in G. destruct (G c Hin) as [Gl Gr].
    destruct Hv as [Hv|Hv]; [exact (w_lt _ _ _ HW v (world_sub _ _ S _ v HW Gl (proj2 Hv)))|exact (w_lt _ _ _ HW v (world_sub _ _ S _ v HW Gr (proj2 Hv)))].
  Qed.
  Lemma index_pos v i : In (v, i) (sp_var2index sp) -> nth_error (sp_var2index sp) i = Some (v, i).
  Proof.
    intros Hv. destruct (C24_bijection st m sp k' Hh Hm E x_nm1) as (B & _). apply In_nth_error in Hv as [j Hj].
    pose proof (f_equal (fun l => nth_error l j) B) as B'. cbn in B'. rewrite nth_error_map, Hj in B'. cbn in B'.
    assert (Hl : (j < m_nx (base_of (sp_prob sp)))%nat) by (rewrite <- (seq_length (m_nx (base_of (sp_prob sp))) 0); apply nth_error_Some; congruence).
    rewrite nth_error_seq in B' by exact Hl. injection B' as ->. exact Hj.
  Qed.
  (** The point that takes the values of [vs]. *)
  Definition point_of (vs : valsX) : list R := map (fun vi => match evaluate vs (fst vi) with Some r => r | None => 0%R end) (sp_var2index sp).
  Lemma point_of_len vs : length (point_of vs) = m_nx (base_of (sp_prob sp)).
  Proof. unfold point_of. rewrite map_length. symmetry. exact (nx_len st m sp k' Hh Hm E). Qed.
  Lemma point_of_val vs v r : In v (map fst (sp_var2index sp)) -> evaluate vs v = Some r -> evaluate (at_point sp (pt (point_of vs))) v = Some r.
  Proof.
    intros Hv Er. apply in_map_iff in Hv as ([w i] & Ew & Hv). cbn in Ew. subst w. rewrite (value_at st m sp k' Hh Hm E _ v i Hv).
    pose proof (index_pos v i Hv) as Hi. unfold pt. apply nth_error_nth. rewrite nth_error_map. unfold point_of. rewrite nth_error_map, Hi. cbn. rewrite Er. reflexivity.
  Qed.
  Lemma hget_at_point (x : list X) v : hget ptr_eq v (at_point sp x) = option_map (fun i => nth i x n0) (hget ptr_eq v (sp_var2index sp)).
  Proof.
    unfold at_point. induction (sp_var2index sp) as [|[w i] l IH]; [reflexivity|]. cbn [map fst snd hget]. destruct (ptr_eq v w); [reflexivity|exact IH].
  Qed.
  Lemma hget_key v i : hget ptr_eq v (sp_var2index sp) = Some i -> exists w, In (w, i) (sp_var2index sp) /\ ptr_eq v w = true.
  Proof.
    induction (sp_var2index sp) as [|[w j] l IH]; [discriminate|]. cbn [hget]. destruct (ptr_eq v w) eqn:Ep.
    - intros Q; injection Q as <-. exists w. split; [left; reflexivity|exact Ep].
    - intros Q. destruct (IH Q) as (u & Hu & Hp). exists u. split; [right; exact Hu|exact Hp].
  Qed.

  Variable row : list R -> R.
  Variable b : R.
  Variable r : nat.
  Hypothesis Hb : nth_error (m_b (base_of (sp_prob sp))) r = Some (Some b).
  Hypothesis Hrow : forall x, ax_row (sp_prob sp) r (pt x) = Some (row x).
  Hypothesis Hvar : forall c, In c (md_constraints m) -> ckd c = Equal -> varies c.
  Lemma row_moves : ~ forall x, row x = 0%R.
  Proof.
    intros Hz. destruct (placed_all st m sp k' Hh Hm E) as (obj & cs & slots & _ & Hp & _).
    assert (Hr : In r (flat_map row_no slots)).
    { rewrite (pl_rows _ _ _ _ _ Hp). apply in_seq. split; [lia|]. apply nth_error_Some. congruence. }
    apply in_flat_map in Hr as (s & Hs & Hr). destruct s as [v bb|r' sl|r' sl]; cbn in Hr; try contradiction. destruct Hr as [->|[]].
    assert (Hc : exists c, In c (md_constraints m) /\ slot_ok (st_k st) cs sp c (SRow r sl)).
    { pose proof (pl_slots _ _ _ _ _ Hp) as F2. clear -F2 Hs. induction F2 as [|c s l l' Hcs F2 IH]; [destruct Hs|]. destruct Hs as [->|Hs].
      - exists c. split; [left; reflexivity|exact Hcs].
      - destruct (IH Hs) as (c' & H1 & H2). exists c'. split; [right; exact H1|exact H2]. }
    destruct Hc as (c & Hin & _ & Hsl & b' & Eb & Heq). rewrite Hb in Eb. injection Eb as <-.
    assert (G : forall x, length x = m_nx (base_of (sp_prob sp)) ->
      x2 Rminus (diff (at_point sp (pt x)) c) (slack_value (at_point sp (pt x)) sl) = Some (0 - b)%R).
    { intros x Hx. rewrite <- Heq by (unfold pt; rewrite map_length; exact Hx). rewrite Hrow, Hz. reflexivity. }
    assert (Hmv : forall v, occurs v (clhs c) \/ occurs v (crhs c) -> In v (map fst (sp_var2index sp))).
    { intros v Hv. destruct (C24_bijection st m sp k' Hh Hm E x_nm1) as (_ & _ & HA & _). apply HA. right. eauto. }
    destruct sl as [sv|]; cbn [slack_ok slack_value] in Hsl, G.
    - destruct Hsl as (Hk & (si & nm & ->) & _). cbn [nid] in Hk.
      set (n := m_nx (base_of (sp_prob sp))) in *. pose proof (G (repeat 0%R n) (repeat_length _ _)) as G0.
      set (x0 := repeat 0%R n) in *.
      destruct (hget ptr_eq (NVar si nm VarContinuous) (sp_var2index sp)) as [i|] eqn:Ei.
      2:{ cbn [evaluate] in G0. rewrite hget_at_point, Ei in G0. cbn in G0. destruct (diff _ c); discriminate G0. }
      pose proof (hget_key _ _ Ei) as (w & Hw & Hpw).
      assert (Hnw : (st_k st <= nid w)%nat) by (destruct w; try discriminate Hpw; cbn in Hpw |- *; apply Nat.eqb_eq in Hpw; lia).
      assert (Hi : (i < n)%nat).
      { pose proof (index_pos w i Hw) as Q. unfold n. rewrite (nx_len st m sp k' Hh Hm E). apply nth_error_Some. congruence. }
      set (x1 := map (fun j => if (j =? i)%nat then 1%R else 0%R) (seq 0 n)).
      pose proof (G x1 ltac:(unfold x1; rewrite map_length, seq_length; reflexivity)) as G1.
      assert (Ed : diff (at_point sp (pt x1)) c = diff (at_point sp (pt x0)) c).
      { assert (Q : forall v, occurs v (clhs c) \/ occurs v (crhs c) -> evaluate (at_point sp (pt x1)) v = evaluate (at_point sp (pt x0)) v).
        { intros v Hv. pose proof (old_vars c v Hin Hv) as Hold. apply Hmv in Hv as Hv'. apply in_map_iff in Hv' as ([v' j] & Ev & Hv'). cbn in Ev. subst v'.
          rewrite !(value_at st m sp k' Hh Hm E _ v j Hv'). assert (Hj : (j < n)%nat).
          { pose proof (index_pos v j Hv') as Q. unfold n. rewrite (nx_len st m sp k' Hh Hm E). apply nth_error_Some. congruence. }
          assert (Hne : j <> i). { intros ->. pose proof (index_pos _ _ Hw). pose proof (index_pos _ _ Hv'). assert (v = w) by congruence. subst. lia. }
          transitivity (Some 0%R).
          - apply nth_error_nth. unfold pt, x1. rewrite !nth_error_map, nth_error_seq by exact Hj. cbn. destruct (Nat.eqb_spec j i); [contradiction|reflexivity].
          - symmetry. apply nth_error_nth. unfold pt, x0. rewrite nth_error_map, nth_error_repeat by exact Hj. reflexivity. }
        unfold diff. rewrite (evaluate_ext _ (at_point sp (pt x0)) (clhs c)) by (intros v Hv; apply Q; auto).
        rewrite (evaluate_ext _ (at_point sp (pt x0)) (crhs c)) by (intros v Hv; apply Q; auto). reflexivity. }
      rewrite Ed in G1. cbn [evaluate] in G0, G1. rewrite hget_at_point, Ei in G0, G1. cbn [option_map] in G0, G1.
      assert (N0 : nth i (pt x0) (@n0 X _) = Some 0%R) by (apply nth_error_nth; unfold pt, x0; rewrite nth_error_map, nth_error_repeat by exact Hi; reflexivity).
      assert (N1 : nth i (pt x1) (@n0 X _) = Some 1%R).
      { apply nth_error_nth. unfold pt, x1. rewrite !nth_error_map, nth_error_seq by exact Hi. cbn. rewrite Nat.eqb_refl. reflexivity. }
      destruct (diff (at_point sp (pt x0)) c) as [d|]; [|discriminate G0].
      assert (Q0 := eq_trans (f_equal (x2 Rminus (Some d)) (eq_sym N0)) G0). assert (Q1 := eq_trans (f_equal (x2 Rminus (Some d)) (eq_sym N1)) G1).
      cbn in Q0, Q1. injection Q0 as Q0. injection Q1 as Q1. lra.
    - destruct (Hvar c Hin Hsl) as (vs & vs' & a & a' & Ea & Ea' & Hne). apply Hne.
      assert (Q : forall us z, diff us c = Some z -> z = (- b)%R).
      { intros us z Ez. specialize (G (point_of us) (point_of_len us)).
        assert (Ed : diff (at_point sp (pt (point_of us))) c = diff us c).
        { unfold diff in Ez |- *. destruct (evaluate us (clhs c)) as [l|] eqn:El; [|discriminate]. destruct (evaluate us (crhs c)) as [rr|] eqn:Err; [|discriminate].
          rewrite (evaluate_ext _ us (clhs c)), (evaluate_ext _ us (crhs c)), El, Err; [reflexivity| |]; intros v Hv.
          - destruct (defined_vars us v _ _ Err Hv) as [s Es]. rewrite Es. apply point_of_val; auto.
          - destruct (defined_vars us v _ _ El Hv) as [s Es]. rewrite Es. apply point_of_val; auto. }
        rewrite Ed, Ez in G. cbn in G. injection G as G. lra. }
      rewrite (Q vs a Ea), (Q vs' a' Ea'). reflexivity.
  Qed.
End RowsX.
