(** Property C69: approximate solutions of the standard problem are approximate
    solutions of the model, with a stated tolerance, and conversely. *)
From Verif Require Import Base Num Node NodeInd NodeDiff NodeStd Constraint Matrix Problem ModelStd Model
     ExprSpec World MapProofs Properties_Diff StdPropProofs EvalProofs DiffProofs GradProofs CompProofs PanicProofs OccProofs ConstrProofs PartsProofs ConstrSpec ConstrEquiv
     MatSpec MatrixProofs ProblemProofs BuildProofs BuildMain ModelSpec PointProofs EvalRun SlotProofs ConstrPanic
     Api ApiProofs ModelApi StdMain HistProofs ModelExample Properties_Constr StdFacts HistAff Properties_Std Properties_Feas
     SolveProofs Properties_Solve TolSpec.
From Coq Require Import Reals Lra.
Local Open Scope R_scope.

(** What [violation] reports is the amount by which the constraint is missed. *)
Theorem C69_violation (c : constraint X) (vs : valsX) d : 0 <= d ->
  holds_within d vs c <->
  (exists a b, evaluate vs (clhs c) = Some a /\ evaluate vs (crhs c) = Some b) /\
  (exists r, violation vs c = Some r /\ 0 <= r <= d).
Proof.
  intros Hd. split.
  - intros (a & b & Ea & Eb & Hr). split; [eauto|]. unfold violation. rewrite Ea, Eb. unfold rel_within in Hr.
    destruct (ckd c); cbn [nabs nsub nmax n0 nlit NumX x2 x1 xmax]; eexists; (split; [reflexivity|]).
    + split; [apply Rabs_pos|exact Hr].
    + split; [apply Rmax_l|]. apply Rmax_lub; lra.
    + split; [apply Rmax_l|]. apply Rmax_lub; lra.
  - intros ((a & b & Ea & Eb) & r & Er & Hr). exists a, b. split; [exact Ea|]. split; [exact Eb|].
    unfold violation in Er. rewrite Ea, Eb in Er. unfold rel_within.
    destruct (ckd c); cbn [nabs nsub nmax n0 nlit NumX x2 x1 xmax] in Er; injection Er as Er.
    + lra.
    + pose proof (Rmax_r 0 (a - b)). lra.
    + pose proof (Rmax_r 0 (b - a)). lra.
Qed.

Lemma F2_pair {A B} (P : A -> B -> Prop) l1 l2 a b : Forall2 P l1 l2 -> In (a, b) (combine l1 l2) -> P a b.
Proof. induction 1; cbn; [tauto|]. intros [E|Hin]; [injection E as <- <-; auto|auto]. Qed.
Lemma F2_left {A B} (P : A -> B -> Prop) l1 l2 a : Forall2 P l1 l2 -> In a l1 -> exists b, In (a, b) (combine l1 l2) /\ P a b.
Proof. induction 1; cbn; [tauto|]. intros [->|Hin]; [eauto|]. destruct (IHForall2 Hin) as (b & ? & ?). eauto. Qed.

Section Tol.
  Context `{HashOrd}.
  Variables (st : mstate X) (m : model X) (sp : std_prob X) (k' : nat).
  Hypothesis Hh : hist any_op st.
  Hypothesis Hm : In m (st_models st).
  Hypothesis E : std_problem m (st_k st) = Ok (sp, k').

  (** Points feasible up to [eps] give valuations that miss equalities by at
      most [eps] and inequalities by at most [2 eps] (the slack of a row may be
      off by [eps], and the row by another [eps]). *)
  Theorem C69_sound (x : list R) eps : 0 <= eps ->
    Forall meaningful (md_constraints m) ->
    feasible_within eps (sp_prob sp) x -> model_near eps eps (2 * eps) m (at_point sp (pt x)).
  Proof.
    intros He Hmean (Hx & Hrow & (q & Eq & Hf) & Hb).
    destruct (placed_all st m sp k' Hh Hm E) as (obj0 & cs0 & slots & Em0 & Hp & _).
    pose proof (tightest_of st m sp k' obj0 cs0 slots Hh Hm E Em0 Hp) as Ht.
    destruct (C24_bijection st m sp k' Hh Hm E x_nm1) as (_ & _ & HA & _).
    destruct (hist_run st m sp k' Hh Hm E) as (S & obj & S' & eo & ke & ko & ps & ar & jr & uc & lc & Hi & Mi & HW & Em & R & Esp & _).
    rewrite Em0 in Em. inversion Em; subst obj0 cs0; clear Em.
    set (vars := problem_vars k' obj (cat ps)) in *.
    assert (Hat : at_point sp (pt x) = point_vals vars (pt x)) by (rewrite Esp; reflexivity).
    assert (Hkey : forall v, In v (prop_keys (cat ps)) -> exists i, In (v, i) (sp_var2index sp)).
    { intros v Hv. assert (Hin : In v vars) by (apply (run_vars_in _ _ _ _ _ _ _ _ _ _ _ _ _ v R); auto).
      apply In_nth_error in Hin as [i Hin]. exists i. rewrite Esp. cbn [sp_var2index]. apply enum_in. exact Hin. }
    pose proof (sr_in _ _ _ _ _ _ _ _ _ _ _ _ _ R) as [_ _ _ _ _ Pu Pl]. rewrite Forall_forall in Pu, Pl.
    (* a variable with a listed bound is within eps of it *)
    assert (Hbd : forall c v rb, bounds_with (cat ps) c v (Some rb) -> exists r,
              evaluate (at_point sp (pt x)) v = Some r /\
              match ckd c with LessEqual => r <= rb + eps | GreaterEqual => r >= rb - eps | Equal => False end).
    { intros c v rb Hbw. unfold bounds_with in Hbw. destruct (ckd c); [destruct Hbw| |].
      - destruct (Hkey v (Pu _ Hbw)) as [i Hvi]. destruct (Ht v i Hvi) as ((u & Eu & _ & Hub & _) & _).
        destruct (value_real st m sp k' Hh Hm E x v i Hx Hvi) as (r & Er & Ev). exists r. split; [exact Ev|].
        destruct (Hb i r Er) as ((l' & u' & _ & Eu' & _ & Hle) & _).
        rewrite Eu in Eu'. injection Eu' as <-.
        rewrite (pl_uppers _ _ _ _ _ Hp) in Hbw. specialize (Hub rb c Hbw). lra.
      - destruct (Hkey v (Pl _ Hbw)) as [i Hvi]. destruct (Ht v i Hvi) as (_ & (u & Eu & _ & Hub & _)).
        destruct (value_real st m sp k' Hh Hm E x v i Hx Hvi) as (r & Er & Ev). exists r. split; [exact Ev|].
        destruct (Hb i r Er) as ((l' & u' & El' & _ & Hle & _) & _).
        rewrite Eu in El'. injection El' as <-.
        rewrite (pl_lowers _ _ _ _ _ Hp) in Hbw. specialize (Hub rb c Hbw). lra. }
    (* a residual within eps gives a constraint within its tolerance *)
    assert (Hres : forall c sl res, slack_ok (st_k st) (cat ps) c sl -> Rabs res <= eps ->
              x2 Rminus (diff (at_point sp (pt x)) c) (slack_value (at_point sp (pt x)) sl) = Some res ->
              holds_within (match ckd c with Equal => eps | _ => 2 * eps end) (at_point sp (pt x)) c).
    { intros c sl res Hs Hres Ed. unfold diff in Ed.
      destruct (evaluate (at_point sp (pt x)) (clhs c)) as [a|] eqn:Ea; [|discriminate].
      destruct (evaluate (at_point sp (pt x)) (crhs c)) as [b|] eqn:Eb; [|discriminate].
      exists a, b. split; [exact Ea|]. split; [exact Eb|]. destruct sl as [v|]; cbn [slack_ok slack_value] in Hs, Ed.
      - destruct Hs as (_ & _ & Hbw). destruct (Hbd c v 0 Hbw) as (r & Er & Hr). rewrite Er in Ed. cbn in Ed. injection Ed as <-.
        unfold Rabs in Hres. unfold rel_within. destruct (ckd c); [destruct Hr| |]; destruct (Rcase_abs (a - b - r)); lra.
      - rewrite Hs. cbn in Ed. injection Ed as <-. unfold rel_within. replace (a - b) with (a - b - 0) by lra. exact Hres. }
    split.
    - intros v Hv. apply HA in Hv. apply in_map_iff in Hv as ([w i] & <- & Hv). cbn [fst].
      destruct (value_real st m sp k' Hh Hm E x w i Hx Hv) as (r & Er & Ev). exists r. split; [exact Ev|]. intros Hint.
      destruct (Hb i r Er) as (_ & Hint'). apply Hint'. rewrite (C28_mask st m sp k' w i Hh Hm E Hv), Hint. reflexivity.
    - rewrite Forall_forall in Hmean |- *. intros c Hc.
      destruct (F2_left _ _ _ c (pl_slots _ _ _ _ _ Hp) Hc) as (s & _ & Hs). destruct s as [v b|r sl|r sl]; cbn [slot_ok] in Hs.
      + destruct Hs as (Hbw & _ & Hd).
        destruct (Hmean c Hc) as (vs & a0 & b0 & Ea0 & Eb0). pose proof (Hd vs) as Hd0. unfold diff in Hd0. rewrite Ea0, Eb0 in Hd0.
        destruct b as [rb|]; [|destruct (evaluate vs v); discriminate]. clear Hd0.
        destruct (Hbd c v rb Hbw) as (r & Er & Hr). specialize (Hd (at_point sp (pt x))). unfold diff in Hd. rewrite Er in Hd.
        destruct (evaluate (at_point sp (pt x)) (clhs c)) as [a|] eqn:Ea; [|discriminate].
        destruct (evaluate (at_point sp (pt x)) (crhs c)) as [b|] eqn:Eb; [|discriminate].
        cbn in Hd. injection Hd as Hd. exists a, b. split; [exact Ea|]. split; [exact Eb|]. unfold rel_within.
        destruct (ckd c); [destruct Hr| |]; lra.
      + destruct Hs as (_ & Hs & b & Eb & Hd).
        destruct (Hrow r b Eb) as (a & b' & Ea & -> & Hab). refine (Hres c sl (a - b') Hs Hab _).
        rewrite <- Hd by (unfold pt; rewrite map_length; exact Hx). rewrite Ea. reflexivity.
      + destruct Hs as (_ & Hs & f & Ef & Hd).
        rewrite Esp in Eq, Hx. cbn [sp_prob] in Eq, Hx. destruct (base_shape k' (md_init m) obj (cat ps)) as (_ & _ & _ & _ & _ & _ & En).
        rewrite En in Hx.
        destruct (run_evaluate _ _ _ _ _ _ _ _ _ _ _ _ _ _ (pt x) R (ev_start _)) as (q' & Eq' & Ebf & _).
        { unfold pt. rewrite map_length. exact Hx. }
        rewrite Eq in Eq'. inversion Eq'; subst q'. rewrite Ebf in Hf. unfold bufs_at in Hf.
        destruct (p_linear obj (cat ps)) eqn:El.
        * unfold p_linear in El. apply andb_true_iff in El as [_ El]. apply Nat.eqb_eq in El.
          destruct (cs_f (cat ps)); [destruct r; discriminate|discriminate].
        * cbn [b_f] in Hf. rewrite Forall_map, Forall_forall in Hf.
          destruct (Hf f (nth_error_In _ _ Ef)) as (res & Er & Hres'). refine (Hres c sl res Hs Hres' _).
          rewrite <- Hd, Hat. exact Er.
  Qed.

  (** With a near-optimal point, the objective of the model is within [delta]
      of that of every solution of the model in the box. *)
  Theorem C69_optimal (x : list R) eps delta : 0 <= eps ->
    Forall meaningful (md_constraints m) -> optimal_within eps delta (sp_prob sp) x ->
    model_near eps eps (2 * eps) m (at_point sp (pt x)) /\
    forall vs b, model_feasible m vs -> in_box 100000000 m vs -> obj_value m vs = Some b ->
      exists a, obj_value m (at_point sp (pt x)) = Some a /\ a <= b + delta.
  Proof.
    intros He Hmean (Hf & a & Ha & Hopt). split; [exact (C69_sound x eps He Hmean Hf)|].
    intros vs b Hvs Hbox Hb. destruct (C26_complete st m sp k' Hh Hm E vs Hvs Hbox) as (y & Hy & Hag).
    assert (Eo : obj_value m (at_point sp (pt y)) = Some b).
    { rewrite <- Hb. unfold obj_value. assert (G : forall f, (forall v, occurs v f -> model_var m v) ->
        evaluate (at_point sp (pt y)) f = evaluate vs f).
      { intros f Hocc. apply evaluate_ext. intros v Hv. apply Hag. auto. }
      unfold model_var in G. destruct (md_objective m) as [f|f|]; [apply G; auto|f_equal; apply G; auto|reflexivity]. }
    destruct (C27_objective st m sp k' Hh Hm E) as (shift & _ & _ & Hobj).
    destruct (Hobj x (proj1 Hf)) as (phx & Px & Ex & _). destruct (Hobj y (proj1 Hy)) as (phy & Py & Ey & _).
    assert (phx = Some a).
    { destruct Px as (q1 & Q1 & <-). destruct Ha as (q2 & Q2 & <-). rewrite Q1 in Q2. inversion Q2. reflexivity. }
    subst phx. rewrite Ey in Eo. destruct phy as [b'|]; [|discriminate]. destruct shift as [s|]; [|discriminate].
    cbn in Eo. inversion Eo; subst b. exists (a + s)%R. rewrite Ex. split; [reflexivity|].
    specialize (Hopt y b' Hy Py). lra.
  Qed.
  (** The other direction: a valuation in the box that misses the constraints by
      at most [eps] extends to a point feasible up to [eps]. *)
  Theorem C69_complete (vs : valsX) eps : 0 <= eps ->
    model_near eps eps eps m vs -> in_box (100000000 + eps) m vs ->
    exists x, feasible_within eps (sp_prob sp) x /\
      forall v, model_var m v -> evaluate (at_point sp (pt x)) v = evaluate vs v.
  Proof.
    intros He [Hmv Hhold] [Bv Bc].
    destruct (C24_slacks st m sp k' Hh Hm E) as (obj0 & cs0 & slots & Em0 & Hp & HS).
    pose proof (tightest_of st m sp k' obj0 cs0 slots Hh Hm E Em0 Hp) as Ht.
    destruct (C24_bijection st m sp k' Hh Hm E x_nm1) as (HB0 & Hinj & HA & HB & _).
    pose proof (nx_len st m sp k' Hh Hm E) as Hnx.
    destruct (hist_run st m sp k' Hh Hm E) as (S & obj & S' & eo & ke & ko & ps & ar & jr & uc & lc & Hi & Mi & HW & Em & R & Esp & _).
    rewrite Em0 in Em. inversion Em; subst obj0 cs0; clear Em.
    set (vars := problem_vars k' obj (cat ps)) in *.
    set (table := flat_map (fun cs => map (fun v => (v, diff vs (fst cs))) (slack_of (snd cs))) (combine (md_constraints m) slots)).
    assert (Hlen : length (md_constraints m) = length slots).
    { pose proof (pl_slots _ _ _ _ _ Hp) as F2. clear -F2. induction F2; cbn; auto. }
    assert (Htab : map fst table = flat_map slack_of slots).
    { unfold table. clear -Hlen. revert slots Hlen. induction (md_constraints m) as [|c l IH]; intros [|s slots] Hl; try discriminate; [reflexivity|].
      cbn [combine flat_map]. rewrite map_app, IH by (cbn in Hl; lia). f_equal. cbn [snd]. rewrite map_map. cbn. apply map_id. }
    assert (Hnd : NoDup (map fst table)) by (rewrite Htab; apply (pl_slacks _ _ _ _ _ Hp)).
    assert (Hfun : forall v d d', In (v, d) table -> In (v, d') table -> d = d').
    { clear -Hnd. induction table as [|[w e] l IH]; intros v d d'; cbn; [tauto|]. cbn in Hnd. inversion Hnd as [|? ? Hni Hnd']; subst.
      intros [E1|I1] [E2|I2].
      - congruence.
      - exfalso. apply Hni. injection E1 as <- <-. apply (in_map fst) in I2. exact I2.
      - exfalso. apply Hni. injection E2 as <- <-. apply (in_map fst) in I1. exact I1.
      - exact (IH Hnd' v d d' I1 I2). }
    assert (Hnew : forall v d, In (v, d) table -> (st_k st <= nid v)%nat /\ is_integer v = false /\
              exists c, In c (md_constraints m) /\ d = diff vs c).
    { intros v d Hin. unfold table in Hin. apply in_flat_map in Hin as ([c s] & Hcs & Hin). cbn [fst snd] in Hin.
      apply in_map_iff in Hin as (w & Ew & Hw). injection Ew as -> <-.
      pose proof (F2_pair _ _ _ _ _ (pl_slots _ _ _ _ _ Hp) Hcs) as Hs.
      assert (Hso : slack_ok (st_k st) (cat ps) c (Some v)).
      { destruct s as [? ?|? [?|]|? [?|]]; cbn [slack_of In] in Hw; try contradiction; destruct Hw as [->|[]]; apply Hs. }
      destruct Hso as (Hk & (i & nm & ->) & _). split; [exact Hk|]. split; [reflexivity|]. exists c. split; [|reflexivity].
      exact (in_combine_l _ _ _ _ Hcs). }
    assert (Hold : forall v, model_var m v -> (nid v < st_k st)%nat).
    { intros v [Hv|(c & Hc' & Hv)].
      - assert (Ho : exists f, S f /\ occurs v f).
        { destruct Mi as [Mo _ _]. destruct (md_objective m); [eauto|eauto|destruct Hv]. }
        destruct Ho as (f & Sf & [Hv1 Hv2]). apply (w_lt _ _ _ HW). exact (world_sub _ _ _ _ _ HW Sf Hv2).
      - pose proof (mi_cons _ _ Mi) as Mc. rewrite Forall_forall in Mc. destruct (Mc c Hc') as [Sl Sr].
        destruct Hv as [[Hv1 Hv2]|[Hv1 Hv2]]; apply (w_lt _ _ _ HW);
          [exact (world_sub _ _ _ _ _ HW Sl Hv2)|exact (world_sub _ _ _ _ _ HW Sr Hv2)]. }
    set (val := fun v : nodeX => match find (fun e => (nid (fst e) =? nid v)%nat) table with Some e => snd e | None => evaluate vs v end).
    assert (Hval1 : forall v, model_var m v -> val v = evaluate vs v).
    { intros v Hv. unfold val. destruct (find _ table) as [[w d]|] eqn:Ef; [|reflexivity]. exfalso.
      apply find_some in Ef as [Hin Hid]. apply Nat.eqb_eq in Hid. cbn [fst] in Hid.
      destruct (Hnew w d Hin) as [Hk _]. specialize (Hold v Hv). lia. }
    assert (Hkin : forall v d, In (v, d) table -> exists i, In (v, i) (sp_var2index sp)).
    { intros v d Hin. assert (Hv : In v (map fst (sp_var2index sp))).
      { apply HS. right. rewrite <- Htab. apply (in_map fst) in Hin. exact Hin. }
      apply in_map_iff in Hv as ([w i] & <- & Hv). eauto. }
    assert (Hval2 : forall v d, In (v, d) table -> val v = d).
    { intros v d Hin. unfold val. destruct (find _ table) as [[w d']|] eqn:Ef.
      - apply find_some in Ef as [Hin' Hid]. apply Nat.eqb_eq in Hid. cbn [fst] in Hid. cbn [snd].
        destruct (Hkin _ _ Hin) as [i Hi1]. destruct (Hkin _ _ Hin') as [j Hj1].
        destruct (Hinj _ _ _ _ Hj1 Hi1 Hid) as [-> _]. exact (Hfun _ _ _ Hin' Hin).
      - exfalso. apply (find_none _ _ Ef) in Hin. cbn [fst] in Hin. rewrite Nat.eqb_refl in Hin. discriminate. }
    (* every variable has a value in the box *)
    assert (Hreal : forall v i, In (v, i) (sp_var2index sp) -> exists r, val v = Some r /\ Rabs r <= 100000000 + eps /\
              (is_integer v = true -> near_integer eps r)).
    { intros v i Hv. apply (in_map fst) in Hv. cbn [fst] in Hv. apply HS in Hv as [Hv|Hv].
      - destruct (Hmv v Hv) as (r & Er & Hint). exists r. rewrite (Hval1 v Hv). split; [exact Er|]. split; [exact (Bv v r Hv Er)|exact Hint].
      - rewrite <- Htab in Hv. apply in_map_iff in Hv as ([w d] & <- & Hin). cbn [fst].
        destruct (Hnew w d Hin) as (_ & Hni & c & Hc & ->). rewrite (Hval2 _ _ Hin).
        rewrite Forall_forall in Hhold, Bc. destruct (Hhold c Hc) as (a & b & Ea & Eb & _). unfold diff. rewrite Ea, Eb.
        exists (a - b). split; [reflexivity|]. split; [exact (Bc c Hc a b Ea Eb)|]. rewrite Hni. discriminate. }
    set (x := map (fun vi => match val (fst vi) with Some r => r | None => 0 end) (sp_var2index sp)).
    assert (Hxl : length x = m_nx (base_of (sp_prob sp))) by (unfold x; rewrite map_length; auto).
    assert (Hpl : length (pt x) = m_nx (base_of (sp_prob sp))) by (unfold pt; rewrite map_length; exact Hxl).
    assert (Hvi : forall i vi, nth_error (sp_var2index sp) i = Some vi -> snd vi = i).
    { intros i vi Hn. assert (Hs : nth_error (map snd (sp_var2index sp)) i = Some (snd vi)) by (rewrite nth_error_map, Hn; reflexivity).
      rewrite HB0 in Hs. assert (Hlt : (i < length (seq 0 (m_nx (base_of (sp_prob sp)))))%nat) by (apply nth_error_Some; rewrite Hs; discriminate).
      rewrite seq_length in Hlt. apply nth_error_nth with (d := 0%nat) in Hs. rewrite seq_nth in Hs by exact Hlt. lia. }
    assert (Hev : forall v i, In (v, i) (sp_var2index sp) -> evaluate (at_point sp (pt x)) v = val v).
    { intros v i Hin. rewrite (value_at st m sp k' Hh Hm E (pt x) v i Hin). destruct (Hreal v i Hin) as (r & Er & _).
      apply In_nth_error in Hin as [j Hj]. pose proof (Hvi _ _ Hj) as Hs. cbn [snd] in Hs. subst j.
      apply nth_error_nth. unfold pt, x. rewrite !nth_error_map, Hj. cbn [option_map fst]. rewrite Er. reflexivity. }
    assert (Hag : forall v, model_var m v -> evaluate (at_point sp (pt x)) v = evaluate vs v).
    { intros v Hv. pose proof (HA v Hv) as Hin. apply in_map_iff in Hin as ([w i] & <- & Hin). cbn [fst] in *.
      rewrite (Hev w i Hin). apply Hval1. exact Hv. }
    assert (Hdif : forall c, In c (md_constraints m) -> diff (at_point sp (pt x)) c = diff vs c).
    { intros c Hc. unfold diff. f_equal; apply evaluate_ext; intros v Ho; apply Hag; right; eauto. }
    assert (Hdef : forall c, In c (md_constraints m) -> exists d, diff vs c = Some d /\ rel_within eps (ckd c) d 0).
    { intros c Hc. rewrite Forall_forall in Hhold. destruct (Hhold c Hc) as (a & b & Ea & Eb & Hr). unfold diff. rewrite Ea, Eb.
      exists (a - b). split; [reflexivity|]. destruct (ckd c); cbn in *; [replace (a - b - 0) with (a - b) by lra; exact Hr|lra|lra]. }
    assert (Hslk : forall c s v, In (c, s) (combine (md_constraints m) slots) -> In v (slack_of s) ->
              evaluate (at_point sp (pt x)) v = diff vs c).
    { intros c s v Hcs Hv. assert (Hin : In (v, diff vs c) table).
      { unfold table. apply in_flat_map. exists (c, s). split; [exact Hcs|]. cbn [fst snd]. apply in_map_iff. eauto. }
      destruct (Hkin _ _ Hin) as [i Hvi']. rewrite (Hev v i Hvi'). exact (Hval2 _ _ Hin). }
    assert (Hres : forall c s sl, In (c, s) (combine (md_constraints m) slots) -> slack_ok (st_k st) (cat ps) c sl ->
              (forall v, sl = Some v -> In v (slack_of s)) ->
              exists res, x2 Rminus (diff (at_point sp (pt x)) c) (slack_value (at_point sp (pt x)) sl) = Some res /\ Rabs res <= eps).
    { intros c s sl Hcs Hso Hsl. pose proof (in_combine_l _ _ _ _ Hcs) as Hc. rewrite (Hdif c Hc).
      destruct (Hdef c Hc) as (d & Ed & Hr). rewrite Ed. destruct sl as [v|]; cbn [slack_value slack_ok] in *.
      - rewrite (Hslk c s v Hcs (Hsl v eq_refl)), Ed. exists (d - d). split; [reflexivity|].
        replace (d - d) with 0 by lra. rewrite Rabs_R0. exact He.
      - rewrite Hso in Hr. cbn in Hr. exists (d - 0). split; [reflexivity|exact Hr]. }
    assert (Hcomb : forall s, In s slots -> exists c, In (c, s) (combine (md_constraints m) slots)).
    { intros s. clear -Hlen. revert slots Hlen. induction (md_constraints m) as [|c l IH]; intros [|s' slots] Hl; try discriminate; cbn; [tauto|].
      intros [->|Hs]; [eauto|]. destruct (IH slots ltac:(cbn in Hl; lia) Hs) as (c' & Hc'). eauto. }
    exists x. split; [|exact Hag]. split; [exact Hxl|]. split; [|split].
    - intros r b Hb. assert (Hr : In r (flat_map row_no slots)).
      { rewrite (pl_rows _ _ _ _ _ Hp). apply in_seq. split; [lia|]. apply nth_error_Some. rewrite Hb. discriminate. }
      apply in_flat_map in Hr as (s & Hs & Hr). destruct s as [? ?|r' sl|? ?]; cbn [row_no In] in Hr; try contradiction.
      destruct Hr as [->|[]]. destruct (Hcomb _ Hs) as [c Hcs].
      pose proof (F2_pair _ _ _ _ _ (pl_slots _ _ _ _ _ Hp) Hcs) as (_ & Hso & b' & Eb' & Hd). rewrite Hb in Eb'. injection Eb' as <-.
      destruct (Hres c _ sl Hcs Hso) as (res & Er & Hle); [intros v ->; cbn; auto|].
      rewrite <- (Hd (pt x) Hpl) in Er. destruct (ax_row (sp_prob sp) r (pt x)) as [a|]; [|discriminate].
      destruct b as [b'|]; [|discriminate]. cbn in Er. injection Er as <-. eauto 6.
    - destruct (base_shape k' (md_init m) obj (cat ps)) as (_ & _ & _ & _ & _ & _ & En).
      rewrite Esp in Hpl. cbn [sp_prob] in Hpl. rewrite En in Hpl. fold vars in Hpl.
      destruct (run_evaluate _ _ _ _ _ _ _ _ _ _ _ _ _ _ (pt x) R (ev_start _) Hpl) as (q' & Eq' & Ebf & _).
      exists q'. split; [rewrite Esp; exact Eq'|]. rewrite Ebf. unfold bufs_at.
      destruct (p_linear obj (cat ps)); cbn [b_f]; [constructor|]. fold vars. rewrite Forall_map.
      apply Forall_forall. intros f Hf. apply In_nth_error in Hf as [r Hf].
      assert (Hr : In r (flat_map fun_no slots)).
      { rewrite (pl_funs _ _ _ _ _ Hp). apply in_seq. split; [lia|]. apply nth_error_Some. rewrite Hf. discriminate. }
      apply in_flat_map in Hr as (s & Hs & Hr). destruct s as [? ?|? ?|r' sl]; cbn [fun_no In] in Hr; try contradiction.
      destruct Hr as [->|[]]. destruct (Hcomb _ Hs) as [c Hcs].
      pose proof (F2_pair _ _ _ _ _ (pl_slots _ _ _ _ _ Hp) Hcs) as (_ & Hso & f' & Ef' & Hd). rewrite Hf in Ef'. injection Ef' as <-.
      destruct (Hres c _ sl Hcs Hso) as (res & Er & Hle); [intros v ->; cbn; auto|]. rewrite <- Hd in Er.
      exists res. split; [|exact Hle]. rewrite <- Er. rewrite Esp. reflexivity.
    - intros i r Hr. unfold x in Hr. rewrite nth_error_map in Hr.
      destruct (nth_error (sp_var2index sp) i) as [[v j]|] eqn:Ej; [|discriminate]. pose proof (Hvi _ _ Ej) as Hj. cbn [snd] in Hj. subst j.
      apply nth_error_In in Ej. destruct (Hreal v i Ej) as (r0 & Er & Hbox & Hint). cbn [option_map fst] in Hr. rewrite Er in Hr. injection Hr as <-.
      assert (Hbox' : - (100000000 + eps) <= r0 <= 100000000 + eps) by (revert Hbox; unfold Rabs; destruct (Rcase_abs r0); lra).
      pose proof (Hev v i Ej) as Ev. rewrite Er in Ev.
      (* a constraint that bounds v, at the bound t *)
      assert (Hbnd : forall c t, In (v, Some t, c) (uppers m slots) \/ In (v, Some t, c) (lowers m slots) ->
                match ckd c with Equal => False | LessEqual => r0 <= t + eps | GreaterEqual => r0 >= t - eps end).
      { intros c t Hin. assert (Hcs : exists s, In (c, s) (combine (md_constraints m) slots) /\ ckd c <> Equal /\
                  (s = SBound v (Some t) \/ t = 0 /\ In v (slack_of s))).
        { destruct Hin as [Hin|Hin]; [unfold uppers in Hin|unfold lowers in Hin]; apply in_flat_map in Hin as ([c' s] & Hcs & Hin);
            [unfold upper_of in Hin|unfold lower_of in Hin]; cbn [fst snd] in Hin;
            destruct (ckd c') eqn:Ek, s as [v' b'|r' [sl|]|r' [sl|]]; cbn [In] in Hin; try contradiction; destruct Hin as [Hin|[]];
            injection Hin as <- Eb <-; eexists; (split; [exact Hcs|]); (split; [rewrite Ek; discriminate|]);
            (try (left; rewrite Eb; reflexivity)); right; (split; [symmetry; try exact Eb|cbn; auto]);
            cbn in Eb; lra. }
        destruct Hcs as (s & Hcs & Hne & Hs). pose proof (in_combine_l _ _ _ _ Hcs) as Hc.
        destruct (Hdef c Hc) as (d & Ed & Hrel). destruct Hs as [->|[-> Hs]].
        - pose proof (F2_pair _ _ _ _ _ (pl_slots _ _ _ _ _ Hp) Hcs) as (_ & _ & Hd). specialize (Hd (at_point sp (pt x))).
          rewrite (Hdif c Hc), Ed, Ev in Hd. cbn in Hd. injection Hd as ->. destruct (ckd c); cbn in Hrel; [congruence|lra|lra].
        - pose proof (Hslk c s v Hcs Hs) as Hd. rewrite Ed, Ev in Hd. injection Hd as ->. destruct (ckd c); cbn in Hrel; [congruence|lra|lra]. }
      assert (Hku : forall w t c, In (w, t, c) (uppers m slots) -> ckd c = LessEqual).
      { intros w t c Hin. unfold uppers in Hin. apply in_flat_map in Hin as ([c' s] & _ & Hin). unfold upper_of in Hin. cbn [fst snd] in Hin.
        destruct (ckd c') eqn:Ek, s as [v' b'|r' [sl|]|r' [sl|]]; cbn [In] in Hin; try contradiction; destruct Hin as [Hin|[]]; injection Hin as _ _ <-; exact Ek. }
      assert (Hkl : forall w t c, In (w, t, c) (lowers m slots) -> ckd c = GreaterEqual).
      { intros w t c Hin. unfold lowers in Hin. apply in_flat_map in Hin as ([c' s] & _ & Hin). unfold lower_of in Hin. cbn [fst snd] in Hin.
        destruct (ckd c') eqn:Ek, s as [v' b'|r' [sl|]|r' [sl|]]; cbn [In] in Hin; try contradiction; destruct Hin as [Hin|[]]; injection Hin as _ _ <-; exact Ek. }
      destruct (Ht v i Ej) as ((u & Eu & _ & _ & Hcu) & (l & El & _ & _ & Hcl)). split.
      + exists l, u. split; [exact El|]. split; [exact Eu|]. split.
        * destruct (hget Nat.eqb i (sp_lcons sp)) as [c|].
          -- destruct Hcl as (l1 & l2 & Els & _).
             assert (Hin : In (v, Some l, c) (lowers m slots)) by (rewrite Els; apply in_or_app; cbn; auto).
             pose proof (Hbnd c l (or_intror Hin)) as G. rewrite (Hkl _ _ _ Hin) in G. lra.
          -- destruct Hcl as [-> _]. lra.
        * destruct (hget Nat.eqb i (sp_ucons sp)) as [c|].
          -- destruct Hcu as (l1 & l2 & Els & _).
             assert (Hin : In (v, Some u, c) (uppers m slots)) by (rewrite Els; apply in_or_app; cbn; auto).
             pose proof (Hbnd c u (or_introl Hin)) as G. rewrite (Hku _ _ _ Hin) in G. lra.
          -- destruct Hcu as [-> _]. lra.
      + intros Hmask. rewrite (C28_mask st m sp k' v i Hh Hm E Ej) in Hmask. injection Hmask as Hmask. auto.
  Qed.
End Tol.

(** Tolerance zero is exact feasibility and exact optimality. *)
Theorem C69_zero (p : problem X) (x : list R) :
  (feasible_within 0 p x -> feasible p x) /\ (optimal_within 0 0 p x -> optimal p x).
Proof.
  assert (Hz : forall a, Rabs a <= 0 -> a = 0) by (intros a Ha; unfold Rabs in Ha; destruct (Rcase_abs a); lra).
  assert (F : feasible_within 0 p x -> feasible p x).
  { intros (Hx & Hrow & (q & Eq & Hf) & Hb). split; [exact Hx|]. split; [|split].
    - intros r b Hb'. destruct (Hrow r b Hb') as (a & b' & Ea & -> & Hab). apply Hz in Hab. exists a. split; [exact Ea|]. f_equal. lra.
    - exists q. split; [exact Eq|]. eapply Forall_impl; [|exact Hf]. intros f (r & -> & Hr). apply Hz in Hr. subst. reflexivity.
    - intros i r Hr. destruct (Hb i r Hr) as ((l & u & El & Eu & Hle) & Hint). split.
      + exists (Some l), (Some u). split; [exact El|]. split; [exact Eu|]. split; [exists l, r|exists r, u]; repeat split; lra.
      + intros Hm. destruct (Hint Hm) as [z Hz']. exists z. apply Hz in Hz'. lra. }
  split; [exact F|]. intros (Hf & a & Ha & Hopt). split; [auto|]. exists a. split; [exact Ha|].
  intros y b Hy Hb. specialize (Hopt y b Hy Hb). lra.
Qed.

(** ** What [solve] records when the solver is approximate *)
Theorem C69_solve `{HashOrd} (st : mstate X) solver m m' k' eps delta : 0 <= eps ->
  hist any_op st -> In m (st_models st) -> solve solver m (st_k st) = (m', Returned (inl tt), k') ->
  Forall meaningful (md_constraints m) ->
  (forall sp stat s, std_problem m (st_k st) = Ok (sp, k') -> solver (sp_prob sp) = Ok (inl (stat, s)) ->
     exists x, s_x s = pt x /\ optimal_within eps delta (sp_prob sp) x) ->
  model_near eps eps (2 * eps) m (md_primals m') /\
  (forall c, In c (md_constraints m) -> exists r, violation (md_primals m') c = Some r /\
     0 <= r <= match ckd c with Equal => eps | _ => 2 * eps end) /\
  forall vs b, model_feasible m vs -> in_box 100000000 m vs -> obj_value m vs = Some b ->
    exists a, obj_value m (md_primals m') = Some a /\ a <= b + delta.
Proof.
  intros He Hh Hm E Hmean Hsol. destruct (C33_primals st solver m m' k' Hh Hm E) as (sp & stat & s & Esp & Es & _ & _ & _ & Hval).
  destruct (Hsol _ _ _ Esp Es) as (x & Ex & Hopt).
  destruct (C69_optimal st m sp k' Hh Hm Esp x eps delta He Hmean Hopt) as [Hf Ho].
  assert (Hv : forall v, model_var m v -> evaluate (md_primals m') v = evaluate (at_point sp (pt x)) v).
  { intros v Hmv. destruct (C24_bijection st m sp k' Hh Hm Esp x_nm1) as (_ & _ & HA & _).
    pose proof (HA v Hmv) as Hin. apply in_map_iff in Hin as ([w i] & <- & Hin). cbn [fst] in *.
    rewrite (value_at st m sp k' Hh Hm Esp (pt x) w i Hin). destruct (Hval w i Hin) as (r & Er & _ & Hg).
    assert (Hw : is_var w = true).
    { destruct Hmv as [Hmv|(c & _ & [Hmv|Hmv])]; [destruct (md_objective m); [apply Hmv|apply Hmv|destruct Hmv]|apply Hmv|apply Hmv]. }
    destruct w; try discriminate. cbn [evaluate]. rewrite <- Ex. rewrite (nth_error_nth _ _ _ Er).
    rewrite Hg. reflexivity. }
  assert (Hc : forall c, In c (md_constraints m) ->
             evaluate (md_primals m') (clhs c) = evaluate (at_point sp (pt x)) (clhs c) /\
             evaluate (md_primals m') (crhs c) = evaluate (at_point sp (pt x)) (crhs c)).
  { intros c Hc. split; apply evaluate_ext; intros v Ho'; apply Hv; right; eauto. }
  assert (Eo : obj_value m (md_primals m') = obj_value m (at_point sp (pt x))).
  { unfold obj_value. assert (G : forall f, (forall v, occurs v f -> model_var m v) ->
      evaluate (md_primals m') f = evaluate (at_point sp (pt x)) f).
    { intros f Hocc. apply evaluate_ext. intros v Hv'. apply Hv. auto. }
    unfold model_var in G. destruct (md_objective m) as [f|f|]; [apply G; auto|f_equal; apply G; auto|reflexivity]. }
  assert (Hnear : model_near eps eps (2 * eps) m (md_primals m')).
  { destruct Hf as [F1 F2]. split.
    + intros v Hmv. rewrite (Hv v Hmv). apply F1. exact Hmv.
    + rewrite Forall_forall in F2 |- *. intros c Hin. destruct (F2 c Hin) as (a & b & Ea & Eb & Hr).
      destruct (Hc c Hin) as [C1 C2]. exists a, b. rewrite C1, C2. auto. }
  split; [exact Hnear|]. split.
  - intros c Hin. destruct Hnear as [_ F2]. rewrite Forall_forall in F2. specialize (F2 c Hin).
    apply C69_violation in F2; [apply F2|destruct (ckd c); lra].
  - intros vs b Hvs Hbox Hb. rewrite Eo. exact (Ho vs b Hvs Hbox Hb).
Qed.

(** The hypotheses are met by a solver that is not exact: minimise x subject to
    x >= 1, answered with x = 1/2; the recorded point misses the constraint. *)
Example C69_hypotheses : exists solver m' k', @hist X _ any_op (lst 1) /\ In (lm 1) (st_models (lst 1)) /\
  @solve X _ ord_id solver (lm 1) (st_k (lst 1)) = (m', Returned (inl tt), k') /\
  Forall meaningful (md_constraints (lm 1)) /\
  (forall sp stat s, @std_problem X _ ord_id (lm 1) (st_k (lst 1)) = Ok (sp, k') -> solver (sp_prob sp) = Ok (inl (stat, s)) ->
     exists x, s_x s = pt x /\ optimal_within (1/2) 0 (sp_prob sp) x) /\
  ~ model_feasible (lm 1) (md_primals m').
Proof.
  destruct (lm_std 1 ltac:(lra)) as (sp & k' & E).
  assert (Hin : In (lm 1) (st_models (lst 1))) by (cbn; auto).
  destruct (@C69_complete ord_id (lst 1) (lm 1) sp k' (lst_hist 1) Hin E [(cx, Some (1/2)%R)] (1/2)) as (x & Hx & Hag); [lra| | |].
  - split.
    + intros v [Hv|(c & [<-|[]] & [Hv|Hv])]; apply occurs_inv in Hv as [[-> Hv]|(c & [] & _)]; try discriminate;
        exists (1/2); split; try reflexivity; discriminate.
    + constructor; [|constructor]. exists (1/2), 1. cbn. repeat split. lra.
  - split.
    + intros v r [Hv|(c & [<-|[]] & [Hv|Hv])]; apply occurs_inv in Hv as [[-> Hv]|(c & [] & _)]; try discriminate;
        intros Ev; cbn in Ev; injection Ev as <-; rewrite Rabs_right; lra.
    + constructor; [|constructor]. intros a b Ea Eb. cbn in Ea, Eb. injection Ea as <-. injection Eb as <-.
      rewrite Rabs_left; lra.
  - assert (Hc : evaluate (at_point sp (pt x)) cx = Some (1/2)).
    { rewrite Hag; [reflexivity|]. left. split; [reflexivity|constructor]. }
    set (b := base_of (sp_prob sp)).
    set (solver := fun _ : problem X => Ok (inl (Solved, mk_sol (pt x) (repeat n0 (length (m_b b)))
                          (repeat n0 (length (b_f (m_bufs b)))) (repeat n0 (m_nx b)) (repeat n0 (m_nx b)))) : res (answer (T := X))).
    destruct (@C33_returns X _ ord_id (lst 1) solver (lm 1) sp k' Solved _ (lst_hist 1) Hin E eq_refl) as (m' & Em);
      cbn [s_x s_lam s_nu s_mu s_pi]; fold b; rewrite ?repeat_length; auto.
    { unfold pt. rewrite map_length. destruct Hx as [Hl _]. rewrite Hl. auto. }
    exists solver, m', k'. split; [apply lst_hist|]. split; [exact Hin|]. split; [exact Em|]. split; [apply lm_meaningful|].
    assert (Hsol : forall sp0 stat s, @std_problem X _ ord_id (lm 1) (st_k (lst 1)) = Ok (sp0, k') -> solver (sp_prob sp0) = Ok (inl (stat, s)) ->
       exists x, s_x s = pt x /\ optimal_within (1/2) 0 (sp_prob sp0) x).
    { intros sp0 stat s E0 Es. pose proof (eq_trans (eq_sym E) E0) as E2. injection E2 as <-. injection Es as <- <-. exists x. split; [reflexivity|].
      split; [exact Hx|]. destruct (@C27_objective ord_id (lst 1) (lm 1) sp k' (lst_hist 1) Hin E) as (shift & _ & _ & Hobj).
      destruct (Hobj x (proj1 Hx)) as (phi & Hphi & Eo & _). cbn [obj_value md_objective lm] in Eo. rewrite Hc in Eo.
      destruct phi as [a|]; [|discriminate]. destruct shift as [t|]; [|discriminate]. cbn in Eo. injection Eo as Eo.
      exists a. split; [exact Hphi|]. intros y c Hy Py.
      destruct (Hobj y (proj1 Hy)) as (phy & Py' & Ey & _).
      assert (phy = Some c).
      { destruct Py as (q1 & Q1 & <-). destruct Py' as (q2 & Q2 & <-). rewrite Q1 in Q2. inversion Q2. reflexivity. }
      subst phy. pose proof (@C26_sound ord_id _ _ sp k' (lst_hist 1) Hin E y (lm_meaningful 1) Hy) as Hf.
      apply lm_feasible in Hf as (r & Er & Hr). cbn [obj_value md_objective lm] in Ey. rewrite Er in Ey. cbn in Ey. injection Ey as Ey. lra. }
    split; [exact Hsol|]. intros Hf. apply lm_feasible in Hf as (r & Er & Hr).
    destruct (@C33_primals X _ ord_id (lst 1) solver (lm 1) m' k' (lst_hist 1) Hin Em) as (sp1 & stat & s & E1 & Es & _ & _ & _ & Hval).
    pose proof (eq_trans (eq_sym E) E1) as E2. injection E2 as <-. injection Es as <- <-.
    destruct (@C24_bijection X _ ord_id _ _ sp k' (lst_hist 1) Hin E x_nm1) as (_ & _ & HA & _).
    assert (Hv : In cx (map fst (sp_var2index sp))) by (apply HA; left; split; [reflexivity|constructor]).
    apply in_map_iff in Hv as ([w i] & Ew & Hv). cbn [fst] in Ew. subst w.
    destruct (Hval cx i Hv) as (r' & Er' & _ & Hg).
    rewrite (@value_at ord_id (lst 1) (lm 1) sp k' (lst_hist 1) Hin E (pt x) cx i Hv) in Hc.
    cbn [s_x] in Er'. rewrite (nth_error_nth _ _ _ Er') in Hc. subst r'.
    assert (Er2 : evaluate (md_primals m') cx = Some (1/2)) by (unfold cx in *; cbn [evaluate]; rewrite Hg; reflexivity).
    rewrite Er2 in Er. injection Er as <-. lra.
Qed.
