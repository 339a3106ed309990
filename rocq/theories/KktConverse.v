(** Lemmas for C54: from multipliers of the model to multipliers of the standard
    problem. *)
From Verif Require Import Base Num Node NodeInd NodeDiff NodeStd Constraint Matrix Problem ModelStd Model
     ExprSpec World MapProofs Properties_Diff StdPropProofs EvalProofs DiffSpec DiffProofs DerivProofs GradProofs HessProofs ConstrSpec ConstrProofs PartsProofs
     MatSpec ProblemProofs BuildProofs BuildMain ModelSpec PointProofs EvalRun SlotProofs EvalSpec StdFacts
     Api ApiProofs ModelApi StdMain HistProofs ModelExample Properties_Constr Properties_Std Properties_Feas SolveProofs
     Properties_Eval Properties_HashSol Properties_Solve KktSpec KktProofs.
From Coq Require Import Reals Lra.
Local Open Scope R_scope.

Lemma nth_map_seq (f : nat -> R) n i : (i < n)%nat -> nth i (map f (seq 0 n)) 0 = f i.
Proof.
  intros Hi. apply nth_error_nth. rewrite nth_error_map, (nth_error_nth' _ 0%nat) by (rewrite seq_length; exact Hi).
  rewrite seq_nth by exact Hi. reflexivity.
Qed.
Lemma total_pos {A} (f : A -> R) l : (forall a, In a l -> 0 <= f a) -> 0 <= total (map f l).
Proof.
  induction l as [|a l IH]; intros Hz; [unfold total; cbn; lra|]. cbn [map]. rewrite total_cons.
  assert (0 <= f a) by (apply Hz; left; reflexivity). assert (0 <= total (map f l)) by (apply IH; intros b Hb; apply Hz; right; exact Hb). lra.
Qed.
Lemma total_mult {A} (f : A -> R) k l : total (map f l) * k = total (map (fun a => f a * k) l).
Proof. induction l as [|a l IH]; [unfold total; cbn; lra|]. cbn [map]. rewrite !total_cons, <- IH. lra. Qed.

Section Converse.
  Context `{HashOrd}.
  Variables (st : mstate X) (m : model X) (sp : std_prob X) (k' : nat).
  Hypothesis Hh : hist any_op st.
  Hypothesis Hm : In m (st_models st).
  Hypothesis E : std_problem m (st_k st) = Ok (sp, k').
  Hypothesis Hnd : NoDup (map cid (md_constraints m)).
  Variables (obj : std_comp X) (cs : cstd X) (slots : list (slot X)).
  Hypothesis Em : model_std m (st_k st) = Ok ((obj, cs), k').
  Hypothesis Hp : placed (st_k st) m cs sp slots.
  Let CS := combine (md_constraints m) slots.
  Let P := base_of (sp_prob sp).
  Let v2i := sp_var2index sp.
  Variable x : list R.
  Hypothesis Hx : length x = m_nx P.
  Let vs0 := at_point sp (pt x).
  Variable q : minlp X.
  Hypothesis Hf : feasible (sp_prob sp) x.
  Hypothesis Eq : minlp_evaluate P (pt x) = Ok q.
  Hypothesis Hq : length (b_f (m_bufs q)) = length (cs_f cs).
  Hypothesis Hfz : forall c r sl, In (c, SFun r sl) CS -> fun_value c sl vs0 = Some 0.
  Hypothesis Hgobj : gradient_at v2i (obj_value m) vs0 (nth_error (b_gphi (m_bufs q))).
  Hypothesis Hgfun : forall c r sl, In (c, SFun r sl) CS ->
    gradient_at v2i (fun_value c sl) vs0 (fun i => Some (coo_at (b_j (m_bufs q)) r i)).
  Variable d : constraint X -> R.
  Hypothesis L : lagrange m vs0 d.

  (** The multipliers. *)
  Definition dsig (o : option (constraint X)) : R := match o with Some c => signed (ckd c) (d c) | None => 0 end.
  Definition lamc : list R := map (fun r => dsig (hget Nat.eqb r (sp_acons sp))) (seq 0 (length (m_b P))).
  Definition nuc : list R := map (fun r => dsig (hget Nat.eqb r (sp_jcons sp))) (seq 0 (length (cs_f cs))).
  Definition ixb (w : nodeX) (i : nat) : bool := match hget ptr_eq w v2i with Some j => (j =? i)%nat | None => false end.
  Definition slot_var (sl : slot X) : option nodeX := match sl with SBound w _ => Some w | _ => hd_error (slack_of sl) end.
  Definition bterm (k : ckind) (i : nat) (e : constraint X * slot X) : R :=
    match slot_var (snd e) with
    | Some w => if ixb w i then (match k, ckd (fst e) with LessEqual, LessEqual | GreaterEqual, GreaterEqual => d (fst e) | _, _ => 0 end) else 0
    | None => 0
    end.
  Definition muc : list R := map (fun i => total (map (bterm LessEqual i) CS)) (seq 0 (length x)).
  Definition pic : list R := map (fun i => total (map (bterm GreaterEqual i) CS)) (seq 0 (length x)).

  Lemma lamc_len : length lamc = length (m_b P).
  Proof. unfold lamc. rewrite map_length. apply seq_length. Qed.
  Lemma nuc_len : length nuc = length (cs_f cs).
  Proof. unfold nuc. rewrite map_length. apply seq_length. Qed.
  Lemma ixb_ptr w v i : In (v, i) v2i -> ixb w i = ptr_eq w v.
  Proof.
    intros Hv. unfold ixb. destruct (hget ptr_eq w v2i) as [j|] eqn:Eg.
    - apply hget_some_in in Eg as (w' & Hw & Ep). destruct (Nat.eqb_spec j i) as [->|Hne].
      + pose proof (v2i_fun st m sp k' Hh Hm E _ _ _ Hw Hv) as ->. symmetry. exact Ep.
      + destruct (ptr_eq w v) eqn:Ew; [exfalso|reflexivity].
        destruct (ix_ptr st m sp k' Hh Hm E _ _ _ _ Hw Hv) as [_ Ei]; [apply ptr_eq_trans with w; [rewrite ptr_eq_sym; exact Ep|exact Ew]|]. contradiction.
    - destruct (ptr_eq w v) eqn:Ew; [exfalso|reflexivity].
      assert (Hn : hget ptr_eq w v2i <> None); [|contradiction]. clear Eg. clear -Hv Ew. induction v2i as [|[a b] l IH]; [destruct Hv|].
      cbn. destruct (ptr_eq w a) eqn:Ea; [discriminate|]. destruct Hv as [Hv|Hv]; [injection Hv as -> ->; congruence|exact (IH Hv)].
  Qed.
  Lemma slot_slack c sl w : In (c, sl) CS -> hd_error (slack_of sl) = Some w -> slack_of sl = [w].
  Proof. intros _. destruct sl as [? ?|? [?|]|? [?|]]; cbn; congruence. Qed.
  Lemma yv_sig c sl : In (c, sl) CS -> (forall w b, sl <> SBound w b) -> yv lamc nuc (c, sl) = signed (ckd c) (d c).
  Proof.
    intros Hin Hnb. pose proof (cs_ok st m sp cs slots Hp c sl Hin) as Ho. destruct sl as [w b|r o|r o]; [destruct (Hnb w b); reflexivity| |].
    - destruct Ho as (Hg & _ & b & Eb & _). unfold yv. cbn [snd]. unfold lamc. rewrite nth_map_seq; [rewrite Hg; reflexivity|].
      apply nth_error_Some. unfold P. congruence.
    - destruct Ho as (Hg & _ & b & Eb & _). unfold yv. cbn [snd]. unfold nuc. rewrite nth_map_seq; [rewrite Hg; reflexivity|].
      apply nth_error_Some. congruence.
  Qed.
  Lemma mu_at i : (i < length x)%nat -> nth i muc 0 = total (map (bterm LessEqual i) CS).
  Proof. intros Hi. unfold muc. exact (nth_map_seq _ _ _ Hi). Qed.
  Lemma pi_at i : (i < length x)%nat -> nth i pic 0 = total (map (bterm GreaterEqual i) CS).
  Proof. intros Hi. unfold pic. exact (nth_map_seq _ _ _ Hi). Qed.
  Lemma bterm_pos k i e : In e CS -> 0 <= bterm k i e.
  Proof.
    destruct e as [c sl]. intros Hin. unfold bterm. cbn [fst snd]. destruct (slot_var sl); [|lra]. destruct (ixb n i); [|lra].
    assert (Hc : ckd c <> Equal -> 0 <= d c) by (intros Hk; exact (lg_sign _ _ _ L c (in_combine_l _ _ _ _ Hin) Hk)).
    destruct k, (ckd c); try lra; apply Hc; discriminate.
  Qed.
  Lemma holds_diff c : In c (md_constraints m) -> exists r, diff vs0 c = Some r.
  Proof.
    intros Hc. destruct (lg_feasible _ _ _ L) as [_ F2]. rewrite Forall_forall in F2. destruct (F2 c Hc) as (a & b & Ea & Eb & _).
    exists (a - b). unfold diff. rewrite Ea, Eb. reflexivity.
  Qed.
  (** The bound behind a term, and its activity. *)
  Lemma term_bound c sl w v i : In (c, sl) CS -> In (v, i) v2i -> slot_var sl = Some w -> ptr_eq w v = true -> ckd c <> Equal ->
    exists b, d c * (nth i x 0 - b) = 0 /\
      (ckd c = LessEqual -> In (v, Some b, c) (uppers m slots)) /\ (ckd c = GreaterEqual -> In (v, Some b, c) (lowers m slots)).
  Proof.
    intros Hin Hv Hw Ep Hk. destruct (holds_diff c (in_combine_l _ _ _ _ Hin)) as [r Er].
    pose proof (lg_active _ _ _ L c r (in_combine_l _ _ _ _ Hin) Hk Er) as Ha.
    pose proof (cs_ok st m sp cs slots Hp c sl Hin) as Ho.
    assert (Hup : forall b, In (v, Some b, c) (upper_of (c, sl)) -> In (v, Some b, c) (uppers m slots)) by (intros b Hb; apply in_flat_map; eauto).
    assert (Hlo : forall b, In (v, Some b, c) (lower_of (c, sl)) -> In (v, Some b, c) (lowers m slots)) by (intros b Hb; apply in_flat_map; eauto).
    assert (Hvw : forall o, (o = sl) -> slack_of o = [w] -> w = v).
    { intros o -> Hs. destruct (slack_ix st m sp k' Hh Hm E obj cs slots Em Hp c sl w Hin Hs) as [j Hj]. exact (proj1 (ix_ptr st m sp k' Hh Hm E _ _ _ _ Hj Hv Ep)). }
    destruct sl as [w' b|r0 [w'|]|r0 [w'|]]; cbn in Hw; try discriminate Hw; injection Hw as ->.
    - destruct Ho as (Hb & Hwv & Hid).
      assert (Evw : evaluate vs0 w = Some (nth i x 0)).
      { rewrite <- (point_value st m sp k' Hh Hm E x v i Hv). unfold bounds_with in Hb.
        destruct (bnd_var st m sp k' Hh Hm E obj cs Em w b c) as [j Hj]; [destruct (ckd c); [destruct Hb|auto|auto]|].
        rewrite (proj1 (ix_ptr st m sp k' Hh Hm E _ _ _ _ Hj Hv Ep)). reflexivity. }
      assert (Hwv' : w = v).
      { unfold bounds_with in Hb. destruct (bnd_var st m sp k' Hh Hm E obj cs Em w b c) as [j Hj]; [destruct (ckd c); [destruct Hb|auto|auto]|].
        exact (proj1 (ix_ptr st m sp k' Hh Hm E _ _ _ _ Hj Hv Ep)). }
      rewrite Hid, Evw in Er. destruct b as [b|]; [|discriminate]. cbn in Er. injection Er as <-. exists b. split; [exact Ha|]. rewrite Hwv' in Hup, Hlo.
      split; intros Ek; [apply Hup|apply Hlo]; unfold upper_of, lower_of; cbn [fst snd]; rewrite Ek; left; reflexivity.
    - pose proof (Hvw _ eq_refl eq_refl) as ->. exists 0. rewrite (diff_is_slack st m sp k' Hh Hm E cs slots Hp x Hx Hf Hfz c _ v i r Hin eq_refl Hv Er) in Ha.
      split; [lra|]. split; intros Ek; [apply Hup|apply Hlo]; unfold upper_of, lower_of; cbn [fst snd]; rewrite Ek; left; reflexivity.
    - pose proof (Hvw _ eq_refl eq_refl) as ->. exists 0. rewrite (diff_is_slack st m sp k' Hh Hm E cs slots Hp x Hx Hf Hfz c _ v i r Hin eq_refl Hv Er) in Ha.
      split; [lra|]. split; intros Ek; [apply Hup|apply Hlo]; unfold upper_of, lower_of; cbn [fst snd]; rewrite Ek; left; reflexivity.
  Qed.

  Lemma conv_slack i xi l u : nth_error x i = Some xi -> nth_error (m_l P) i = Some (Some l) -> nth_error (m_u P) i = Some (Some u) ->
    nth i muc 0 * (u - xi) = 0 /\ nth i pic 0 * (xi - l) = 0.
  Proof.
    intros Exi El Eu. assert (Hi : (i < length x)%nat) by (apply nth_error_Some; congruence).
    destruct (var_at st m sp k' Hh Hm E i) as [v Hv]; [exact (eq_rect _ (fun n => (i < n)%nat) Hi _ Hx)|].
    destruct (tightest_of st m sp k' obj cs slots Hh Hm E Em Hp v i Hv) as ((u' & Eu' & _ & Hu & _) & (l' & El' & _ & Hl & _)).
    unfold P in El, Eu. rewrite Eu in Eu'. injection Eu' as <-. rewrite El in El'. injection El' as <-.
    destruct Hf as (_ & _ & _ & Bx). destruct (Bx i xi Exi) as [(l1 & u1 & El1 & Eu1 & (l2 & xi' & E2 & Exl & Hl1) & (xi'' & u2 & Exu & E3 & Hu1)) _].
    rewrite El in El1. injection El1 as <-. rewrite Eu in Eu1. injection Eu1 as <-. injection E2 as <-. injection E3 as <-. injection Exl as <-. injection Exu as <-.
    rewrite mu_at, pi_at by exact Hi. rewrite !total_mult. split; apply total_zero; intros [c sl] Hin; unfold bterm; cbn [fst snd].
    - destruct (slot_var sl) as [w|] eqn:Ew; [|lra]. rewrite (ixb_ptr w v i Hv). destruct (ptr_eq w v) eqn:Ep; [|lra]. destruct (ckd c) eqn:Ek; try lra.
      destruct (term_bound c sl w v i Hin Hv Ew Ep) as (b & Hb & H1 & _); [congruence|]. specialize (Hu b c (H1 Ek)).
      rewrite (nth_error_nth _ _ _ Exi) in Hb. apply Rmult_integral in Hb as [->|Hb]; [lra|]. replace (u - xi) with 0 by lra. lra.
    - destruct (slot_var sl) as [w|] eqn:Ew; [|lra]. rewrite (ixb_ptr w v i Hv). destruct (ptr_eq w v) eqn:Ep; [|lra]. destruct (ckd c) eqn:Ek; try lra.
      destruct (term_bound c sl w v i Hin Hv Ew Ep) as (b & Hb & _ & H1); [congruence|]. specialize (Hl b c (H1 Ek)).
      rewrite (nth_error_nth _ _ _ Exi) in Hb. apply Rmult_integral in Hb as [->|Hb]; [lra|]. replace (xi - l) with 0 by lra. lra.
  Qed.

  (** Stationarity, for a variable of the model. *)
  Lemma conv_var v i g : model_var m v -> In (v, i) v2i -> partial_of (obj_value m) vs0 v g ->
    g = total (map (fun e => yv lamc nuc e * dv sp q i e) CS) - nth i muc 0 + nth i pic 0.
  Proof.
    intros Hmv Hv Hg. pose proof (ix_lt st m sp k' Hh Hm E x Hx v i Hv) as Hi. rewrite (mu_at i Hi), (pi_at i Hi).
    destruct (lg_stationary _ _ _ L v Hmv) as (g' & ds & Hg' & Hds & Eg). rewrite (partial_of_unique _ _ _ _ _ Hg Hg'), Eg.
    assert (Eds : combine (md_constraints m) ds = map (fun e : constraint X * slot X => (fst e, pd sp q v i e)) CS).
    { assert (G : forall l l' ds', (forall e, In e (combine l l') -> In e CS) -> length l = length l' ->
                Forall2 (fun c z => partial_of (fun a => diff a c) vs0 v z) l ds' ->
                combine l ds' = map (fun e : constraint X * slot X => (fst e, pd sp q v i e)) (combine l l')).
      { induction l as [|c l IH]; intros [|sl l'] ds' HC Hl H2; cbn in Hl; try discriminate; [reflexivity|].
        inversion H2 as [|? z ? ds2 Hz H3]; subst. cbn [combine map fst]. f_equal.
        - f_equal. destruct (holds_diff c) as [r Er]; [apply (in_combine_l _ slots c sl); apply HC; left; reflexivity|].
          apply (partial_of_unique _ _ _ _ _ Hz).
          exact (pd_partial st m sp k' Hh Hm E obj cs slots Em Hp x Hx lamc nuc q Hf lamc_len nuc_len Hgfun v i c sl Hmv Hv (HC _ (or_introl eq_refl)) ltac:(unfold vs0 in Er; congruence)).
        - apply IH; [intros e He; apply HC; right; exact He|congruence|exact H3]. }
      apply G; [auto|exact (cs_len st m sp cs slots Hp)|exact Hds]. }
    rewrite Eds, map_map. cbn [fst snd].
    rewrite (total_ext (fun e : constraint X * slot X => signed (ckd (fst e)) (d (fst e)) * pd sp q v i e)
               (fun e => (yv lamc nuc e * dv sp q i e + - bterm LessEqual i e) + bterm GreaterEqual i e)).
    - rewrite !total_plus, total_opp. lra.
    - intros [c sl] Hin. unfold pd, bterm. cbn [fst snd]. destruct sl as [w b|r o|r o].
      + unfold yv, dv. cbn [snd slot_var]. rewrite (ixb_ptr w v i Hv). pose proof (cs_ok st m sp cs slots Hp c _ Hin) as (Hb & _). unfold bounds_with in Hb.
        destruct (ckd c); [destruct Hb| |]; destruct (ptr_eq w v); unfold signed; lra.
      + rewrite (yv_sig c _ Hin) by (intros; discriminate). destruct (slot_var (SRow r o)) as [w|] eqn:Ew; [|lra].
        rewrite (ixb_ptr w v i Hv). destruct (ptr_eq w v) eqn:Ep; [exfalso|lra]. pose proof (slot_slack c _ w Hin Ew) as Hs.
        destruct (slack_isvar st m sp cs slots Hp c _ w Hin Hs) as [_ Hn]. apply ptr_eq_nid in Ep. pose proof (var_old st m Hh Hm v Hmv). rewrite <- Ep in H0.
        exact (Nat.lt_irrefl _ (Nat.lt_le_trans _ _ _ H0 Hn)).
      + rewrite (yv_sig c _ Hin) by (intros; discriminate). destruct (slot_var (SFun r o)) as [w|] eqn:Ew; [|lra].
        rewrite (ixb_ptr w v i Hv). destruct (ptr_eq w v) eqn:Ep; [exfalso|lra]. pose proof (slot_slack c _ w Hin Ew) as Hs.
        destruct (slack_isvar st m sp cs slots Hp c _ w Hin Hs) as [_ Hn]. apply ptr_eq_nid in Ep. pose proof (var_old st m Hh Hm v Hmv). rewrite <- Ep in H0.
        exact (Nat.lt_irrefl _ (Nat.lt_le_trans _ _ _ H0 Hn)).
  Qed.
  (** ... and for a new variable. *)
  Lemma conv_new v i g : is_var v = true -> (st_k st <= nid v)%nat -> In (v, i) v2i -> partial_of (obj_value m) vs0 v g ->
    g = total (map (fun e => yv lamc nuc e * dv sp q i e) CS) - nth i muc 0 + nth i pic 0.
  Proof.
    intros Hvv Hn Hv Hg. pose proof (ix_lt st m sp k' Hh Hm E x Hx v i Hv) as Hi. rewrite (mu_at i Hi), (pi_at i Hi).
    rewrite (slack_obj st m sp Hh Hm cs x Hx lamc nuc lamc_len nuc_len v g Hvv Hn Hg).
    assert (G : forall e, In e CS -> yv lamc nuc e * dv sp q i e + - bterm LessEqual i e + bterm GreaterEqual i e = 0).
    { intros [c sl] Hin. destruct (slot_var sl) as [w|] eqn:Ew.
      - destruct (ptr_eq w v) eqn:Ep.
        + assert (Hs : slack_of sl = [v]).
          { destruct sl as [w' b|r o|r o].
            - exfalso. cbn in Ew. injection Ew as ->. destruct (cs_ok st m sp cs slots Hp c _ Hin) as (_ & _ & Hid).
              destruct (holds_diff c (in_combine_l _ _ _ _ Hin)) as [r Er]. rewrite Hid in Er.
              destruct b as [b|]; [|destruct (evaluate vs0 w); discriminate].
              pose proof (bound_old st m sp Hh Hm cs slots Hp c w b Hin) as B. apply ptr_eq_nid in Ep.
              pose proof (eq_rect _ (fun n => (n < st_k st)%nat) B _ Ep) as B2. exact (Nat.lt_irrefl _ (Nat.lt_le_trans _ _ _ B2 Hn)).
            - pose proof (slot_slack c _ w Hin Ew) as Hs. destruct (slack_ix st m sp k' Hh Hm E obj cs slots Em Hp c _ w Hin Hs) as [j Hj].
              destruct (ix_ptr st m sp k' Hh Hm E _ _ _ _ Hj Hv Ep) as [-> _]. exact Hs.
            - pose proof (slot_slack c _ w Hin Ew) as Hs. destruct (slack_ix st m sp k' Hh Hm E obj cs slots Em Hp c _ w Hin Hs) as [j Hj].
              destruct (ix_ptr st m sp k' Hh Hm E _ _ _ _ Hj Hv Ep) as [-> _]. exact Hs. }
          rewrite (slack_dv st m sp k' Hh Hm E obj cs slots Em Hp x Hx lamc nuc q Hf lamc_len nuc_len Hgfun c sl v i Hin Hs Hv).
          assert (Hnb : forall w' b, sl <> SBound w' b) by (intros w' b ->; discriminate).
          rewrite (yv_sig c sl Hin Hnb). unfold bterm. cbn [fst snd]. rewrite Ew, (ixb_ptr w v i Hv), Ep.
          destruct (ckd c) eqn:Ek; unfold signed; try lra.
          exfalso. destruct (slack_new st m sp cs slots Hp c sl v Hin Hs) as (_ & Hb). unfold bounds_with in Hb. rewrite Ek in Hb. exact Hb.
        + rewrite (other_dv st m sp k' Hh Hm E obj cs slots Em Hp x Hx lamc nuc q Hf lamc_len nuc_len Hgfun c sl v i Hin Hvv Hn Hv).
          * unfold bterm. cbn [fst snd]. rewrite Ew, (ixb_ptr w v i Hv), Ep. lra.
          * intros Hs. assert (w = v) as -> by (destruct sl as [? ?|? [?|]|? [?|]]; cbn in *; congruence). rewrite ptr_eq_refl in Ep. discriminate.
      - rewrite (other_dv st m sp k' Hh Hm E obj cs slots Em Hp x Hx lamc nuc q Hf lamc_len nuc_len Hgfun c sl v i Hin Hvv Hn Hv).
        + unfold bterm. cbn [fst snd]. rewrite Ew. lra.
        + intros Hs. destruct sl as [? ?|? [?|]|? [?|]]; cbn in *; congruence. }
    pose proof (total_zero _ _ G) as T. rewrite !total_plus, total_opp in T. lra.
  Qed.

  Theorem kkt_of_lagrange : exists lam nu mu pi, kkt (sp_prob sp) x lam nu mu pi.
  Proof.
    exists lamc, nuc, muc, pic. constructor.
    - exact Hf.
    - exact lamc_len.
    - unfold muc. rewrite map_length. apply seq_length.
    - unfold pic. rewrite map_length. apply seq_length.
    - exists q. split; [exact Eq|]. split; [rewrite Hq; exact nuc_len|]. intros i Hi.
      destruct (var_at st m sp k' Hh Hm E i) as [v Hv]; [exact (eq_rect _ (fun n => (i < n)%nat) Hi _ Hx)|].
      destruct (Hgobj v i Hv) as (g & Eg & Hg).
      destruct (sums st m sp k' Hh Hm E obj cs slots Em Hp x Hx lamc nuc q Hf lamc_len nuc_len Hgfun v i Hv) as (aty & jtn & Ea & Ej & T).
      exists g, aty, jtn. repeat (split; [assumption|]).
      assert (Hs : g = total (map (fun e => yv lamc nuc e * dv sp q i e) CS) - nth i muc 0 + nth i pic 0).
      { destruct (C24_bijection st m sp k' Hh Hm E x_nm1) as (_ & _ & _ & HB & _).
        destruct (HB v) as [Hmv|((Hk1 & _) & nm & Env)]; [apply in_map_iff; exists (v, i); auto|exact (conv_var v i g Hmv Hv Hg)|].
        apply (conv_new v i g); auto. rewrite Env. reflexivity. }
      unfold CS in Hs. rewrite Hs, T. lra.
    - intros i Hi. rewrite (mu_at i Hi), (pi_at i Hi). split; apply total_pos; intros e He; apply bterm_pos; exact He.
    - exact conv_slack.
  Qed.
End Converse.
