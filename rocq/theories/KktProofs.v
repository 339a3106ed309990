(** Lemmas for C54: from multipliers of the standard problem to multipliers of
    the model. *)
From Verif Require Import Base Num Node NodeInd NodeDiff NodeStd Constraint Matrix Problem ModelStd Model
     ExprSpec World MapProofs Properties_Diff StdPropProofs EvalProofs DiffSpec DiffProofs DerivProofs GradProofs HessProofs ConstrSpec ConstrProofs PartsProofs
     MatSpec ProblemProofs BuildProofs BuildMain ModelSpec PointProofs EvalRun SlotProofs EvalSpec StdFacts
     Api ApiProofs ModelApi StdMain HistProofs ModelExample Properties_Constr Properties_Std Properties_Feas SolveProofs
     Properties_Eval Properties_HashSol Properties_Solve KktSpec.
From Coq Require Import Reals Lra.
Local Open Scope R_scope.

Lemma total_app l l' : total (l ++ l') = total l + total l'.
Proof. induction l as [|a l IH]; cbn; [unfold total; cbn; lra|]. unfold total in *. cbn. rewrite IH. lra. Qed.
Lemma total_cons a l : total (a :: l) = a + total l.
Proof. reflexivity. Qed.
Lemma total_zero {A} (f : A -> R) l : (forall a, In a l -> f a = 0) -> total (map f l) = 0.
Proof.
  induction l as [|a l IH]; intros Hz; [reflexivity|]. cbn [map]. rewrite total_cons, (Hz a), IH; [lra| |left; reflexivity].
  intros b Hb. apply Hz. right. exact Hb.
Qed.
Lemma total_one {A} (f : A -> R) l a : NoDup l -> In a l -> (forall b, In b l -> b <> a -> f b = 0) -> total (map f l) = f a.
Proof.
  induction l as [|b l IH]; [intros _ []|]. intros Hn [->|Ha] Hz; apply NoDup_cons_iff in Hn as [Hb Hn]; cbn [map]; rewrite total_cons.
  - rewrite total_zero; [lra|]. intros c Hc. apply Hz; [right; exact Hc|]. intros ->. contradiction.
  - rewrite (Hz b); [|left; reflexivity|intros ->; contradiction]. rewrite IH; auto; [lra|]. intros c Hc. apply Hz. right. exact Hc.
Qed.
Lemma total_plus {A} (f g : A -> R) l : total (map (fun a => f a + g a) l) = total (map f l) + total (map g l).
Proof. induction l as [|a l IH]; [unfold total; cbn; lra|]. cbn [map]. rewrite !total_cons, IH. lra. Qed.
Lemma total_opp {A} (f : A -> R) l : total (map (fun a => - f a) l) = - total (map f l).
Proof. induction l as [|a l IH]; [unfold total; cbn; lra|]. cbn [map]. rewrite !total_cons, IH. lra. Qed.
Lemma total_ext {A} (f g : A -> R) l : (forall a, In a l -> f a = g a) -> total (map f l) = total (map g l).
Proof. intros E. f_equal. apply map_ext_in. exact E. Qed.
Lemma total_flat {A} (h : nat -> R) (f : A -> list nat) l :
  total (map h (flat_map f l)) = total (map (fun a => total (map h (f a))) l).
Proof. induction l as [|a l IH]; [reflexivity|]. cbn [flat_map map]. rewrite map_app, total_app, total_cons, IH. reflexivity. Qed.
Lemma xsum_total l : xsum (map Some l) = Some (total l).
Proof. induction l as [|a l IH]; [reflexivity|]. cbn [map]. rewrite xsum_cons, IH. reflexivity. Qed.

(** The transpose product, when all the entries are defined. *)
Lemma tr_mul_total M y i a : (forall r, (r < length y)%nat -> coo_at M r i = Some (a r)) ->
  tr_mul M y i = Some (total (map (fun r => a r * nth r y 0) (seq 0 (length y)))).
Proof.
  intros Ha. unfold tr_mul. rewrite <- xsum_total, map_map. f_equal. apply map_ext_in. intros r Hr. apply in_seq in Hr.
  rewrite Ha by lia. reflexivity.
Qed.

(** Row times point, as a function of one component. *)
Lemma row_dot_step (row : list (nat * X)) e x :
  row_dot (e :: row) x = x2 Rplus (x2 Rmult (nth (fst e) x (Some 0)) (snd e)) (row_dot row x).
Proof. rewrite !row_dot_xsum. cbn [map]. apply xsum_cons. Qed.
Lemma nth_set_nth {A} (l : list A) i j x d : (i < length l)%nat -> nth j (set_nth l i x) d = if (j =? i)%nat then x else nth j l d.
Proof.
  revert i j. induction l as [|a l IH]; intros i j Hi; [cbn in Hi; lia|].
  destruct i as [|i], j as [|j]; cbn; auto. apply IH. cbn in Hi. lia.
Qed.
Lemma set_nth_len {A} (l : list A) i x : length (set_nth l i x) = length l.
Proof. revert i; induction l as [|a l IH]; intros [|i]; cbn; auto. Qed.
Lemma pt_nth x j : nth j (pt x) (Some 0) = Some (nth j x 0).
Proof. unfold pt. change (Some 0) with ((fun r : R => Some r) 0). exact (map_nth (fun r : R => Some r) x 0 j). Qed.
Lemma row_dot_line (row : list (nat * X)) x i z : (i < length x)%nat -> row_dot row (pt x) = Some z ->
  exists s K, xsum (map snd (filter (fun e => fst e =? i)%nat row)) = Some s /\
    forall t, row_dot row (pt (set_nth x i t)) = Some (s * t + K).
Proof.
  intros Hi. revert z. induction row as [|[c v] row IH]; intros z Ez.
  - exists 0, 0. split; [reflexivity|]. intros t. cbn. f_equal. lra.
  - rewrite row_dot_step in Ez. cbn [fst snd] in Ez. rewrite pt_nth in Ez.
    destruct v as [v|]; [|discriminate]. destruct (row_dot row (pt x)) as [z'|]; [|discriminate].
    destruct (IH z' eq_refl) as (s & K & Es & Hl). clear IH Ez. cbn [filter fst].
    assert (Eq : forall t, row_dot ((c, Some v) :: row) (pt (set_nth x i t)) =
                           Some (nth c (set_nth x i t) 0 * v + (s * t + K))).
    { intros t. rewrite row_dot_step. cbn [fst snd]. rewrite pt_nth, (Hl t). reflexivity. }
    destruct (Nat.eqb_spec c i) as [->|Hne].
    + exists (v + s), K. split; [cbn [map snd]; rewrite xsum_cons, Es; reflexivity|]. intros t. rewrite Eq, nth_set_nth, Nat.eqb_refl by exact Hi. f_equal. lra.
    + exists s, (nth c x 0 * v + K). split; [exact Es|]. intros t. rewrite Eq, nth_set_nth by exact Hi.
      rewrite (proj2 (Nat.eqb_neq _ _) Hne). f_equal. lra.
Qed.
Lemma coo_at_row (M : coo X) r i : coo_at M r i = xsum (map snd (filter (fun e => fst e =? i)%nat (row_of r (entries M)))).
Proof.
  unfold coo_at, row_of. f_equal. induction (entries M) as [|[[a b] v] l IH]; [reflexivity|]. cbn [filter fst snd].
  destruct (a =? r)%nat; cbn [andb map filter fst snd]; [|exact IH]. destruct (b =? i)%nat; cbn [map snd]; [f_equal|]; exact IH.
Qed.

Lemma line_deriv s K a : derivable_pt_lim (fun t => s * t + K) a s.
Proof.
  intros eps He. exists (mkposreal 1 Rlt_0_1). intros h Hh _.
  replace ((s * (a + h) + K - (s * a + K)) / h - s) with 0 by (field; exact Hh). rewrite Rabs_R0. exact He.
Qed.

Lemma hd_value g x0 l : has_derivative g x0 l -> exists z, g x0 = Some z.
Proof. intros (d & f & G & _). exists (f x0). apply G. rewrite Rminus_diag_eq, Rabs_R0 by reflexivity. apply cond_pos. Qed.
Lemma partial_const F vs v l : is_var v = true -> partial_of F vs v l -> (forall t t', F (upd vs v t) = F (upd vs v t')) -> l = 0.
Proof.
  intros Hv (x0 & Ex & Hd) Hc. destruct (hd_value _ _ _ Hd) as [z Ez]. eapply has_derivative_unique; [exact Hd|].
  eapply hd_ext; [|apply (hd_const z)]. intros t. cbn beta. rewrite (Hc t x0). symmetry. exact Ez.
Qed.
Definition valx (a : X) : R := match a with Some r => r | None => 0 end.

Lemma pt_dual (o : option X) l i : o = nth_error (pt l) i -> o <> None -> match o with Some (Some r) => r | _ => 0 end = nth i l 0.
Proof.
  intros -> Hn. unfold pt in *. rewrite nth_error_map in *. destruct (nth_error l i) as [r|] eqn:En; [|destruct Hn; reflexivity].
  cbn. symmetry. apply nth_error_nth. exact En.
Qed.

Section Core.
  Context `{HashOrd}.
  Variables (st : mstate X) (m : model X) (sp : std_prob X) (k' : nat).
  Hypothesis Hh : hist any_op st.
  Hypothesis Hm : In m (st_models st).
  Hypothesis E : std_problem m (st_k st) = Ok (sp, k').
  Hypothesis Hnd : NoDup (map cid (md_constraints m)).
  Variables (obj : std_comp X) (cs : cstd X) (slots : list (slot X)).
  Hypothesis Em : model_std m (st_k st) = Ok ((obj, cs), k').
  Hypothesis Hp : placed (st_k st) m cs sp slots.
  Let CS := combine (md_constraints m) slots.
  Let P := base_of (sp_prob sp).
  Let v2i := sp_var2index sp.

  Lemma var_old v : model_var m v -> (nid v < st_k st)%nat.
  Proof.
    intros [Ho|(c & Hc & Hv)]; [|exact (old_var st m Hh Hm v c Hc Hv)].
    destruct (hist_inv false st Hh) as (S & Hi).
    pose proof (hi_models _ _ _ Hi) as G. rewrite Forall_forall in G. destruct (G m Hm) as (Mi & _ & _).
    pose proof (hi_world _ _ _ Hi) as HW. destruct Mi as [Mo _ _].
    destruct (md_objective m); [| |destruct Ho]; apply (w_lt _ _ _ HW); exact (world_sub _ _ _ _ _ HW Mo (proj2 Ho)).
  Qed.
  Lemma var_is v : model_var m v -> is_var v = true.
  Proof.
    intros [Ho|(c & Hc & [Hv|Hv])]; [|exact (proj1 Hv)|exact (proj1 Hv)].
    destruct (md_objective m); [| |destruct Ho]; exact (proj1 Ho).
  Qed.
  Lemma var_ix v : model_var m v -> exists i, In (v, i) v2i.
  Proof.
    intros Hv. destruct (C24_bijection st m sp k' Hh Hm E x_nm1) as (_ & _ & HA & _).
    specialize (HA v Hv). apply in_map_iff in HA as ([w i] & <- & Hin). exists i. exact Hin.
  Qed.
  Lemma slack_ix c sl s : In (c, sl) CS -> slack_of sl = [s] -> exists i, In (s, i) v2i.
  Proof.
    intros Hin Hs. destruct (slack_new st m sp cs slots Hp c sl s Hin Hs) as (_ & Hb). unfold bounds_with in Hb.
    apply (bnd_var st m sp k' Hh Hm E obj cs Em s (Some 0) c). destruct (ckd c); [destruct Hb|auto|auto].
  Qed.
  Lemma slack_isvar c sl s : In (c, sl) CS -> slack_of sl = [s] -> is_var s = true /\ (st_k st <= nid s)%nat.
  Proof.
    intros Hin Hs. pose proof (cs_ok st m sp cs slots Hp c sl Hin) as Ho.
    destruct sl as [v b|r [v|]|r [v|]]; cbn in Hs; try discriminate; injection Hs as ->;
      destruct Ho as (_ & (Hk & (i & nm & ->) & _) & _); auto.
  Qed.
  Lemma ix_isvar v i : In (v, i) v2i -> is_var v = true.
  Proof.
    intros Hin. destruct (C24_bijection st m sp k' Hh Hm E x_nm1) as (_ & _ & _ & HB & _).
    destruct (HB v) as [Hv|(_ & nm & ->)]; [apply in_map_iff; exists (v, i); auto|apply var_is; exact Hv|reflexivity].
  Qed.
  Lemma ix_ptr v w i j : In (v, i) v2i -> In (w, j) v2i -> ptr_eq v w = true -> v = w /\ i = j.
  Proof.
    intros H1 H2 Ep. destruct (C24_bijection st m sp k' Hh Hm E x_nm1) as (_ & B & _). apply (B v w i j H1 H2). apply ptr_eq_nid. exact Ep.
  Qed.
  Lemma ptr_neq (v w : nodeX) : nid v <> nid w -> ptr_eq v w = false.
  Proof. intros Hn. destruct (ptr_eq v w) eqn:Ep; [|reflexivity]. apply ptr_eq_nid in Ep. contradiction. Qed.

  (** The parts depend on the model's variables only. *)
  Lemma diff_ext vs vs' c : In c (md_constraints m) ->
    (forall v, model_var m v -> evaluate vs v = evaluate vs' v) -> diff vs c = diff vs' c.
  Proof. intros Hc Hv. unfold diff. f_equal; apply evaluate_ext; intros v Ho; apply Hv; right; eauto. Qed.
  Lemma obj_ext vs vs' : (forall v, model_var m v -> evaluate vs v = evaluate vs' v) -> obj_value m vs = obj_value m vs'.
  Proof.
    intros Hv. unfold obj_value. unfold model_var in Hv. destruct (md_objective m) as [f|f|]; auto; [|f_equal]; apply evaluate_ext; auto.
  Qed.
  Lemma fun_ext vs vs' c sl : In (c, sl) CS ->
    (forall v i, In (v, i) v2i -> evaluate vs v = evaluate vs' v) -> fun_value c (hd_error (slack_of sl)) vs = fun_value c (hd_error (slack_of sl)) vs'.
  Proof.
    intros Hin Hv. unfold fun_value. f_equal.
    - apply diff_ext; [exact (in_combine_l _ _ _ _ Hin)|]. intros v Hmv. destruct (var_ix v Hmv) as [i Hi]. eauto.
    - unfold slack_value. destruct (slack_of sl) as [|s l] eqn:Es; [reflexivity|]. cbn [hd_error].
      assert (Es' : slack_of sl = [s]) by (destruct sl as [? ?|? [?|]|? [?|]]; cbn in *; congruence).
      destruct (slack_ix c sl s Hin Es') as [i Hi]. eauto.
  Qed.

  (** Varying one component of the point varies one variable. *)
  Variable x : list R.
  Hypothesis Hx : length x = m_nx P.
  Let vs0 := at_point sp (pt x).
  Lemma point_upd v i t : In (v, i) v2i ->
    forall w j, In (w, j) v2i -> evaluate (upd vs0 v t) w = evaluate (at_point sp (pt (set_nth x i t))) w.
  Proof.
    intros Hv w j Hw. rewrite (value_at st m sp k' Hh Hm E _ w j Hw).
    assert (Hi : (i < length x)%nat).
    { rewrite Hx. destruct (C24_bijection st m sp k' Hh Hm E x_nm1) as (B & _).
      assert (In i (map snd (sp_var2index sp))) by (apply in_map_iff; exists (v, i); auto). rewrite B in H0. apply in_seq in H0. unfold P. lia. }
    change (@n0 X _) with (Some 0). rewrite pt_nth, nth_set_nth by exact Hi.
    destruct (Nat.eqb_spec j i) as [->|Hne].
    - rewrite (v2i_fun st m sp k' Hh Hm E _ _ _ Hw Hv). apply evaluate_upd_same; [exact (ix_isvar _ _ Hv)|apply ptr_eq_refl].
    - rewrite evaluate_upd_other; [|exact (ix_isvar _ _ Hw)|].
      + unfold vs0. rewrite (value_at st m sp k' Hh Hm E _ w j Hw). change (@n0 X _) with (Some 0). apply pt_nth.
      + destruct (ptr_eq w v) eqn:Ep; [|reflexivity]. destruct (ix_ptr _ _ _ _ Hw Hv Ep). contradiction.
  Qed.
  Lemma point_value v i : In (v, i) v2i -> evaluate vs0 v = Some (nth i x 0).
  Proof. intros Hv. unfold vs0. rewrite (value_at st m sp k' Hh Hm E _ v i Hv). change (@n0 X _) with (Some 0). apply pt_nth. Qed.
  Lemma ix_lt v i : In (v, i) v2i -> (i < length x)%nat.
  Proof.
    intros Hv. rewrite Hx. destruct (C24_bijection st m sp k' Hh Hm E x_nm1) as (B & _).
    assert (In i (map snd (sp_var2index sp))) by (apply in_map_iff; exists (v, i); auto). rewrite B in H0. apply in_seq in H0. unfold P. lia.
  Qed.

  (** Rows of A are gradients. *)
  Lemma row_gradient c r sl : In (c, SRow r sl) CS -> feasible (sp_prob sp) x ->
    gradient_at v2i (fun_value c sl) vs0 (fun i => Some (coo_at (m_a P) r i)).
  Proof.
    intros Hin (_ & Hrow & _) v i Hv. pose proof (cs_ok st m sp cs slots Hp c _ Hin) as (_ & _ & b & Eb & Hid).
    destruct (Hrow r b Eb) as (z & Ez & Ebz). subst b.
    destruct (row_dot_line _ x i z (ix_lt v i Hv) Ez) as (s & K & Es & Hl).
    exists s. split; [f_equal; rewrite coo_at_row; exact Es|]. exists (nth i x 0). split; [exact (point_value v i Hv)|].
    exists (mkposreal 1 Rlt_0_1), (fun t => s * t + (K - z)). split.
    - intros t _. transitivity (fun_value c sl (at_point sp (pt (set_nth x i t)))).
      + assert (Eh : sl = hd_error (slack_of (SRow r sl))) by (destruct sl; reflexivity). rewrite Eh. apply (fun_ext _ _ c (SRow r sl) Hin). exact (point_upd v i t Hv).
      + unfold fun_value. rewrite <- Hid by (unfold pt; rewrite map_length, set_nth_len; exact Hx).
        unfold ax_row. rewrite (Hl t). cbn. f_equal. lra.
    - apply line_deriv.
  Qed.

  Variables (lam nu mu pi : list R) (q : minlp X).
  Hypothesis Hf : feasible (sp_prob sp) x.
  Hypothesis Hlam : length lam = length (m_b P).
  Hypothesis Hnu : length nu = length (cs_f cs).
  Hypothesis Hst : forall i, (i < length x)%nat -> exists g aty jtn,
      nth_error (b_gphi (m_bufs q)) i = Some (Some g) /\
      tr_mul (m_a P) lam i = Some aty /\ tr_mul (b_j (m_bufs q)) nu i = Some jtn /\
      g - aty - jtn + nth i mu 0 - nth i pi 0 = 0.
  Hypothesis Hsign : forall i, (i < length x)%nat -> 0 <= nth i mu 0 /\ 0 <= nth i pi 0.
  Hypothesis Hslk : forall i xi l u, nth_error x i = Some xi ->
    nth_error (m_l P) i = Some (Some l) -> nth_error (m_u P) i = Some (Some u) ->
    nth i mu 0 * (u - xi) = 0 /\ nth i pi 0 * (xi - l) = 0.
  Hypothesis Hin8 : forall i xi, nth_error x i = Some xi -> Rabs xi < 100000000.
  Hypothesis Hfz : forall c r sl, In (c, SFun r sl) CS -> fun_value c sl vs0 = Some 0.
  Hypothesis Hgobj : gradient_at v2i (obj_value m) vs0 (nth_error (b_gphi (m_bufs q))).
  Hypothesis Hgfun : forall c r sl, In (c, SFun r sl) CS ->
    gradient_at v2i (fun_value c sl) vs0 (fun i => Some (coo_at (b_j (m_bufs q)) r i)).

  (** The multiplier of a row or function, and its derivative by variable [i]. *)
  Definition yv (e : constraint X * slot X) : R :=
    match snd e with SRow r _ => nth r lam 0 | SFun r _ => nth r nu 0 | SBound _ _ => 0 end.
  Definition dv (i : nat) (e : constraint X * slot X) : R :=
    match snd e with SRow r _ => valx (coo_at (m_a P) r i) | SFun r _ => valx (coo_at (b_j (m_bufs q)) r i) | SBound _ _ => 0 end.

  Lemma dv_partial v i c sl : In (v, i) v2i -> In (c, sl) CS -> (forall w b, sl <> SBound w b) ->
    partial_of (fun_value c (hd_error (slack_of sl))) vs0 v (dv i (c, sl)).
  Proof.
    intros Hv Hin Hnb. destruct sl as [w b|r sl|r sl]; [destruct (Hnb w b); reflexivity| |].
    - destruct (row_gradient c r sl Hin Hf v i Hv) as (l & El & Hl). injection El as El. unfold dv. cbn [snd]. rewrite El. cbn [valx].
      destruct sl; exact Hl.
    - destruct (Hgfun c r sl Hin v i Hv) as (l & El & Hl). injection El as El. unfold dv. cbn [snd]. rewrite El. cbn [valx].
      destruct sl; exact Hl.
  Qed.

  (** Without the slack, which does not depend on the model's variables. *)
  Lemma drop_slack v i c sl l : model_var m v -> In (v, i) v2i -> In (c, sl) CS ->
    partial_of (fun_value c (hd_error (slack_of sl))) vs0 v l -> partial_of (fun vs => diff vs c) vs0 v l.
  Proof.
    intros Hmv Hi Hin (x0 & Ex & Hd). exists x0. split; [exact Ex|].
    assert (G : exists sv, forall t, slack_value (upd vs0 v t) (hd_error (slack_of sl)) = sv).
    { destruct (slack_of sl) as [|s l0] eqn:Es; [exists (Some 0); reflexivity|]. cbn [hd_error slack_value].
      assert (Es' : slack_of sl = [s]) by (destruct sl as [? ?|? [?|]|? [?|]]; cbn in *; congruence).
      destruct (slack_isvar c sl s Hin Es') as [Hs Hk]. exists (evaluate vs0 s). intros t. apply evaluate_upd_other; [exact Hs|].
      apply ptr_neq. pose proof (var_old v Hmv). lia. }
    destruct G as [sv Hsv]. destruct (hd_value _ _ _ Hd) as [z Ez]. unfold fun_value in Ez. rewrite Hsv in Ez.
    destruct sv as [sv|]; [|destruct (diff _ c); discriminate].
    replace l with (l + 0) by lra. eapply hd_ext; [|apply (hd_plus _ _ _ _ _ Hd (hd_const sv x0))].
    intros t. cbn beta. unfold fun_value. rewrite Hsv. destruct (diff (upd vs0 v t) c); cbn; [f_equal; lra|reflexivity].
  Qed.
  (** The transpose products, as one sum over the constraints. *)
  Lemma sums v i : In (v, i) v2i -> exists aty jtn, tr_mul (m_a P) lam i = Some aty /\ tr_mul (b_j (m_bufs q)) nu i = Some jtn /\
    total (map (fun e => yv e * dv i e) CS) = aty + jtn.
  Proof.
    intros Hv.
    assert (La : forall r, (r < length lam)%nat -> coo_at (m_a P) r i = Some (valx (coo_at (m_a P) r i))).
    { intros r Hr. assert (Hi : In r (flat_map row_no slots)) by (rewrite (pl_rows _ _ _ _ _ Hp); apply in_seq; unfold P in Hlam; lia).
      rewrite (flat_map_snd row_no _ _ (cs_len st m sp cs slots Hp)) in Hi. apply in_flat_map in Hi as ([c sl] & Hc & Hr'). cbn [snd] in Hr'.
      destruct sl as [|r' sl|]; cbn in Hr'; try tauto. destruct Hr' as [->|[]].
      destruct (row_gradient c r sl Hc Hf v i Hv) as (l & El & _). injection El as El. rewrite El. reflexivity. }
    assert (Lj : forall r, (r < length nu)%nat -> coo_at (b_j (m_bufs q)) r i = Some (valx (coo_at (b_j (m_bufs q)) r i))).
    { intros r Hr. assert (Hi : In r (flat_map fun_no slots)) by (rewrite (pl_funs _ _ _ _ _ Hp); apply in_seq; lia).
      rewrite (flat_map_snd fun_no _ _ (cs_len st m sp cs slots Hp)) in Hi. apply in_flat_map in Hi as ([c sl] & Hc & Hr'). cbn [snd] in Hr'.
      destruct sl as [| |r' sl]; cbn in Hr'; try tauto. destruct Hr' as [->|[]].
      destruct (Hgfun c r sl Hc v i Hv) as (l & El & _). injection El as El. rewrite El. reflexivity. }
    eexists. eexists. split; [exact (tr_mul_total _ _ _ _ La)|]. split; [exact (tr_mul_total _ _ _ _ Lj)|].
    assert (Sa : seq 0 (length lam) = flat_map (fun e : constraint X * slot X => row_no (snd e)) CS).
    { rewrite Hlam. unfold P, CS. rewrite <- (flat_map_snd row_no _ _ (cs_len st m sp cs slots Hp)). symmetry. exact (pl_rows _ _ _ _ _ Hp). }
    assert (Sj : seq 0 (length nu) = flat_map (fun e : constraint X * slot X => fun_no (snd e)) CS).
    { rewrite Hnu. unfold P, CS. rewrite <- (flat_map_snd fun_no _ _ (cs_len st m sp cs slots Hp)). symmetry. exact (pl_funs _ _ _ _ _ Hp). }
    rewrite Sa, Sj, !total_flat, <- total_plus. apply total_ext. intros [c sl] _. unfold yv, dv. cbn [snd].
    destruct sl; cbn [row_no fun_no map]; unfold total; cbn [fold_right]; lra.
  Qed.
  Lemma obj_sum v i : In (v, i) v2i -> exists g, partial_of (obj_value m) vs0 v g /\
    g = total (map (fun e => yv e * dv i e) CS) - nth i mu 0 + nth i pi 0.
  Proof.
    intros Hv. destruct (Hst i (ix_lt v i Hv)) as (g & aty & jtn & Eg & Ea & Ej & Hs).
    destruct (Hgobj v i Hv) as (g' & Eg' & Hg'). rewrite Eg in Eg'. injection Eg' as <-. exists g. split; [exact Hg'|].
    destruct (sums v i Hv) as (aty' & jtn' & Ea' & Ej' & T). rewrite Ea in Ea'. rewrite Ej in Ej'. injection Ea' as <-. injection Ej' as <-. lra.
  Qed.

  (** Slacks. *)
  Lemma cs_nodup : NoDup CS.
  Proof.
    unfold CS. clear -Hnd. revert slots. induction (md_constraints m) as [|a l IH]; intros [|b l']; cbn; try constructor.
    - cbn in Hnd. apply NoDup_cons_iff in Hnd as [Ha _]. intros Hin. apply Ha. apply in_map. exact (in_combine_l _ _ _ _ Hin).
    - apply IH. cbn in Hnd. apply NoDup_cons_iff in Hnd as [_ Hn]. exact Hn.
  Qed.
  Lemma diff_slack c0 sl0 s c t : In (c0, sl0) CS -> slack_of sl0 = [s] -> In c (md_constraints m) -> diff (upd vs0 s t) c = diff vs0 c.
  Proof.
    intros Hin Hs Hc. destruct (slack_isvar c0 sl0 s Hin Hs) as [Hv Hn]. apply diff_ext; [exact Hc|]. intros w Hw.
    apply evaluate_upd_other; [apply var_is; exact Hw|]. apply ptr_neq. pose proof (var_old w Hw). lia.
  Qed.
  Lemma slack_obj s g : is_var s = true -> (st_k st <= nid s)%nat -> partial_of (obj_value m) vs0 s g -> g = 0.
  Proof.
    intros Hv Hn Hg. apply (partial_const _ _ _ _ Hv Hg). intros t t'. apply obj_ext. intros w Hw.
    rewrite !evaluate_upd_other; auto; try (apply var_is; exact Hw); apply ptr_neq; pose proof (var_old w Hw); lia.
  Qed.
  Lemma slack_dv c sl s i : In (c, sl) CS -> slack_of sl = [s] -> In (s, i) v2i -> dv i (c, sl) = -1.
  Proof.
    intros Hin Hs Hi. destruct (slack_isvar c sl s Hin Hs) as [Hv Hn].
    assert (Hnb : forall w b, sl <> SBound w b) by (intros w b ->; discriminate).
    pose proof (dv_partial s i c sl Hi Hin Hnb) as (x0 & Ex & Hd). rewrite Hs in Hd. cbn [hd_error] in Hd.
    assert (Ef : forall t, fun_value c (Some s) (upd vs0 s t) = x2 Rminus (diff vs0 c) (Some t)).
    { intros t. unfold fun_value. rewrite (diff_slack c sl s c t Hin Hs (in_combine_l _ _ _ _ Hin)). cbn [slack_value].
      rewrite evaluate_upd_same; auto using ptr_eq_refl. }
    destruct (hd_value _ _ _ Hd) as [z Ez]. rewrite Ef in Ez. destruct (diff vs0 c) as [d|]; [|discriminate].
    eapply has_derivative_unique; [exact Hd|]. eapply (hd_ext (fun t => Some (-1 * t + d))).
    - intros t. rewrite Ef. cbn. f_equal. lra.
    - exists (mkposreal 1 Rlt_0_1), (fun t => -1 * t + d). split; [reflexivity|apply line_deriv].
  Qed.
  (** A new variable that is not the slack of the constraint does not matter. *)
  Lemma other_dv c' sl' s i : In (c', sl') CS -> is_var s = true -> (st_k st <= nid s)%nat -> In (s, i) v2i -> slack_of sl' <> [s] ->
    dv i (c', sl') = 0.
  Proof.
    intros Hin' Hv Hn Hi Hne. destruct sl' as [w b|r o|r o]; [reflexivity| |];
      (match goal with |- dv i (c', ?sl') = 0 =>
        pose proof (dv_partial s i c' sl' Hi Hin' ltac:(intros; discriminate)) as Hd; apply (partial_const _ _ _ _ Hv Hd); intros t t';
        unfold fun_value; f_equal;
        [apply diff_ext; [exact (in_combine_l _ _ _ _ Hin')|]; intros w Hw; rewrite !evaluate_upd_other; auto;
           try (apply var_is; exact Hw); apply ptr_neq; pose proof (var_old w Hw); lia|];
        destruct (slack_of sl') as [|s' l] eqn:Es; [reflexivity|];
        cbn [hd_error slack_value];
        assert (Es' : slack_of sl' = [s']) by (destruct o; cbn in *; congruence);
        destruct (slack_ix c' sl' s' Hin' Es') as [j Hj]; destruct (slack_isvar c' sl' s' Hin' Es') as [Hv' _];
        assert (Hpe : ptr_eq s' s = false);
        [ destruct (ptr_eq s' s) eqn:Ep; [|reflexivity]; destruct (ix_ptr _ _ _ _ Hj Hi Ep) as [-> _]; rewrite Es' in Es; rewrite <- Es in Hne; contradiction
        | rewrite !evaluate_upd_other; auto ]
       end).
  Qed.
  Lemma slack_mult c sl s i : In (c, sl) CS -> slack_of sl = [s] -> In (s, i) v2i -> yv (c, sl) = nth i pi 0 - nth i mu 0.
  Proof.
    intros Hin Hs Hi. destruct (slack_isvar c sl s Hin Hs) as [Hv Hn].
    destruct (obj_sum s i Hi) as (g & Hg & Eg).
    rewrite (slack_obj s g Hv Hn Hg), (total_one _ _ (c, sl) cs_nodup Hin) in Eg.
    - rewrite (slack_dv c sl s i Hin Hs Hi) in Eg. lra.
    - intros [c' sl'] Hin' Hne. rewrite (other_dv c' sl' s i Hin' Hv Hn Hi); [lra|].
      intros Hs'. destruct (slack_inj st m sp cs slots Hp c sl c' sl' s Hin Hin' Hs Hs') as [-> ->]. contradiction.
  Qed.

  Variables (s : sol X) (m' : model X).
  Hypothesis Slam : s_lam s = pt lam.
  Hypothesis Snu : s_nu s = pt nu.
  Hypothesis Smu : s_mu s = pt mu.
  Hypothesis Spi : s_pi s = pt pi.
  Hypothesis Hd : forall c sl, In (c, sl) CS -> dual_of sp s c sl (hget constr_eqb c (md_duals m')).
  Let d := dual_value m'.

  Lemma x_nth v i : In (v, i) v2i -> nth_error x i = Some (nth i x 0).
  Proof. intros Hv. apply nth_error_nth'. exact (ix_lt v i Hv). Qed.
  Lemma in8 v i : In (v, i) v2i -> - 100000000 < nth i x 0 < 100000000.
  Proof. intros Hv. pose proof (Hin8 i _ (x_nth v i Hv)) as B. apply Rabs_def2 in B. lra. Qed.
  Lemma tight v i : In (v, i) v2i ->
    exists u l, tightest_upper v u (hget Nat.eqb i (sp_ucons sp)) (uppers m slots) /\
      tightest_lower v l (hget Nat.eqb i (sp_lcons sp)) (lowers m slots) /\
      nth i mu 0 * (u - nth i x 0) = 0 /\ nth i pi 0 * (nth i x 0 - l) = 0.
  Proof.
    intros Hv. destruct (tightest_of st m sp k' obj cs slots Hh Hm E Em Hp v i Hv) as ((u & Eu & Hu) & (l & El & Hl)).
    exists u, l. split; [exact Hu|]. split; [exact Hl|]. exact (Hslk i _ l u (x_nth v i Hv) El Eu).
  Qed.
  Lemma mu_default v i : In (v, i) v2i -> hget Nat.eqb i (sp_ucons sp) = None -> nth i mu 0 = 0.
  Proof.
    intros Hv Hg. destruct (tight v i Hv) as (u & l & Hu & _ & Hs & _). rewrite Hg in Hu. destruct Hu as (_ & _ & -> & _).
    pose proof (in8 v i Hv). apply Rmult_integral in Hs as [Hs|Hs]; lra.
  Qed.
  Lemma pi_default v i : In (v, i) v2i -> hget Nat.eqb i (sp_lcons sp) = None -> nth i pi 0 = 0.
  Proof.
    intros Hv Hg. destruct (tight v i Hv) as (u & l & _ & Hl & _ & Hs). rewrite Hg in Hl. destruct Hl as (_ & _ & -> & _).
    pose proof (in8 v i Hv). apply Rmult_integral in Hs as [Hs|Hs]; lra.
  Qed.
  (** The responsible constraint and its bound. *)
  Lemma u_resp v i c : In (v, i) v2i -> hget Nat.eqb i (sp_ucons sp) = Some c ->
    ckd c = LessEqual /\ exists sl u, In (c, sl) CS /\ nth i mu 0 * (u - nth i x 0) = 0 /\
      ((sl = SBound v (Some u)) \/ (slack_of sl = [v] /\ u = 0)).
  Proof.
    intros Hv Hg. destruct (tight v i Hv) as (u & l & Hu & _ & Hs & _). rewrite Hg in Hu. destruct Hu as (_ & _ & l1 & l2 & EL & _).
    assert (Hi : In (v, Some u, c) (uppers m slots)) by (rewrite EL; apply in_or_app; right; left; reflexivity).
    apply in_flat_map in Hi as ([c' sl] & Hin & Hu). unfold upper_of in Hu. cbn [fst snd] in Hu.
    destruct (ckd c') eqn:Ek, sl as [v' b|r [s'|]|r [s'|]]; cbn [In] in Hu; try tauto; destruct Hu as [Hu|[]]; injection Hu as -> Hb ->;
      (split; [exact Ek|]); eexists; exists u; (split; [exact Hin|]); (split; [exact Hs|]).
    - left. rewrite Hb. reflexivity.
    - right. split; [reflexivity|]. change (@n0 X _) with (Some 0) in Hb. congruence.
    - right. split; [reflexivity|]. change (@n0 X _) with (Some 0) in Hb. congruence.
  Qed.
  Lemma l_resp v i c : In (v, i) v2i -> hget Nat.eqb i (sp_lcons sp) = Some c ->
    ckd c = GreaterEqual /\ exists sl l, In (c, sl) CS /\ nth i pi 0 * (nth i x 0 - l) = 0 /\
      ((sl = SBound v (Some l)) \/ (slack_of sl = [v] /\ l = 0)).
  Proof.
    intros Hv Hg. destruct (tight v i Hv) as (u & l & _ & Hl & _ & Hs). rewrite Hg in Hl. destruct Hl as (_ & _ & l1 & l2 & EL & _).
    assert (Hi : In (v, Some l, c) (lowers m slots)) by (rewrite EL; apply in_or_app; right; left; reflexivity).
    apply in_flat_map in Hi as ([c' sl] & Hin & Hu). unfold lower_of in Hu. cbn [fst snd] in Hu.
    destruct (ckd c') eqn:Ek, sl as [v' b|r [s'|]|r [s'|]]; cbn [In] in Hu; try tauto; destruct Hu as [Hu|[]]; injection Hu as -> Hb ->;
      (split; [exact Ek|]); eexists; exists l; (split; [exact Hin|]); (split; [exact Hs|]).
    - left. rewrite Hb. reflexivity.
    - right. split; [reflexivity|]. change (@n0 X _) with (Some 0) in Hb. congruence.
    - right. split; [reflexivity|]. change (@n0 X _) with (Some 0) in Hb. congruence.
  Qed.
  (** A slack is bounded by its own constraint, on one side only. *)
  Lemma slack_owner c sl v c' sl' (b : R) : In (c, sl) CS -> slack_of sl = [v] -> In (c', sl') CS ->
    sl' = SBound v (Some b) \/ slack_of sl' = [v] -> c = c' /\ sl = sl'.
  Proof.
    intros Hin Hs Hin' [->|Hs'].
    - exfalso. pose proof (bound_old st m sp Hh Hm cs slots Hp c' v b Hin') as B. destruct (slack_isvar c sl v Hin Hs) as [S1 S2]. exact (Nat.lt_irrefl _ (Nat.lt_le_trans _ _ _ B S2)).
    - exact (slack_inj st m sp cs slots Hp c sl c' sl' v Hin Hin' Hs Hs').
  Qed.
  Lemma slack_mu c sl v i : In (c, sl) CS -> slack_of sl = [v] -> In (v, i) v2i -> ckd c <> LessEqual -> nth i mu 0 = 0.
  Proof.
    intros Hin Hs Hi Hk. destruct (hget Nat.eqb i (sp_ucons sp)) as [c'|] eqn:Hg; [|exact (mu_default v i Hi Hg)].
    exfalso. destruct (u_resp v i c' Hi Hg) as (Ek & sl' & u & Hin' & _ & Hc).
    destruct (slack_owner c sl v c' sl' u Hin Hs Hin') as [-> _]; [tauto|]. contradiction.
  Qed.
  Lemma slack_pi c sl v i : In (c, sl) CS -> slack_of sl = [v] -> In (v, i) v2i -> ckd c <> GreaterEqual -> nth i pi 0 = 0.
  Proof.
    intros Hin Hs Hi Hk. destruct (hget Nat.eqb i (sp_lcons sp)) as [c'|] eqn:Hg; [|exact (pi_default v i Hi Hg)].
    exfalso. destruct (l_resp v i c' Hi Hg) as (Ek & sl' & u & Hin' & _ & Hc).
    destruct (slack_owner c sl v c' sl' u Hin Hs Hin') as [-> _]; [tauto|]. contradiction.
  Qed.

  Lemma y_signed c sl : In (c, sl) CS -> (forall w b, sl <> SBound w b) -> yv (c, sl) = signed (ckd c) (d c).
  Proof.
    intros Hin Hnb. pose proof (Hd c sl Hin) as Ho. unfold dual_of in Ho. unfold d, dual_value.
    destruct (ckd c) eqn:Ek, sl as [w b|r [v|]|r [v|]]; try tauto; try (destruct (Hnb w b); reflexivity); unfold signed.
    - destruct Ho as [Ho Hn]. rewrite Slam in Ho. rewrite (pt_dual _ _ _ Ho Hn). reflexivity.
    - destruct Ho as [Ho Hn]. rewrite Snu in Ho. rewrite (pt_dual _ _ _ Ho Hn). reflexivity.
    - destruct Ho as (i & Hi & Ho & Hn). rewrite Smu in Ho. rewrite (pt_dual _ _ _ Ho Hn).
      rewrite (slack_mult c _ v i Hin eq_refl Hi), (slack_pi c _ v i Hin eq_refl Hi); [lra|]. rewrite Ek. discriminate.
    - destruct Ho as (i & Hi & Ho & Hn). rewrite Smu in Ho. rewrite (pt_dual _ _ _ Ho Hn).
      rewrite (slack_mult c _ v i Hin eq_refl Hi), (slack_pi c _ v i Hin eq_refl Hi); [lra|]. rewrite Ek. discriminate.
    - destruct Ho as (i & Hi & Ho & Hn). rewrite Spi in Ho. rewrite (pt_dual _ _ _ Ho Hn).
      rewrite (slack_mult c _ v i Hin eq_refl Hi), (slack_mu c _ v i Hin eq_refl Hi); [lra|]. rewrite Ek. discriminate.
    - destruct Ho as (i & Hi & Ho & Hn). rewrite Spi in Ho. rewrite (pt_dual _ _ _ Ho Hn).
      rewrite (slack_mult c _ v i Hin eq_refl Hi), (slack_mu c _ v i Hin eq_refl Hi); [lra|]. rewrite Ek. discriminate.
  Qed.

  Lemma u_dec v i c sl : In (v, i) v2i -> In (c, sl) CS ->
    hget Nat.eqb i (sp_ucons sp) = Some c \/ hget Nat.eqb i (sp_ucons sp) <> Some c.
  Proof.
    intros Hi Hin. destruct (hget Nat.eqb i (sp_ucons sp)) as [c'|] eqn:Hg; [|right; discriminate].
    destruct (u_resp v i c' Hi Hg) as (_ & sl' & u & Hin' & _).
    destruct (Nat.eq_dec (cid c') (cid c)) as [Eq|Ne]; [left|right; congruence].
    f_equal. apply (cs_inj m Hnd slots c' sl' c sl Hin' Hin). apply Nat.eqb_eq. exact Eq.
  Qed.
  Lemma l_dec v i c sl : In (v, i) v2i -> In (c, sl) CS ->
    hget Nat.eqb i (sp_lcons sp) = Some c \/ hget Nat.eqb i (sp_lcons sp) <> Some c.
  Proof.
    intros Hi Hin. destruct (hget Nat.eqb i (sp_lcons sp)) as [c'|] eqn:Hg; [|right; discriminate].
    destruct (l_resp v i c' Hi Hg) as (_ & sl' & u & Hin' & _).
    destruct (Nat.eq_dec (cid c') (cid c)) as [Eq|Ne]; [left|right; congruence].
    f_equal. apply (cs_inj m Hnd slots c' sl' c sl Hin' Hin). apply Nat.eqb_eq. exact Eq.
  Qed.
  (** The dual of a bound constraint. *)
  Lemma bound_u c v b : In (c, SBound v b) CS -> ckd c = LessEqual -> exists i, In (v, i) v2i /\
    (hget Nat.eqb i (sp_ucons sp) = Some c -> d c = nth i mu 0) /\ (hget Nat.eqb i (sp_ucons sp) <> Some c -> d c = 0).
  Proof.
    intros Hin Ek. pose proof (Hd c _ Hin) as Ho. unfold dual_of in Ho. rewrite Ek in Ho. destruct Ho as (i & Hi & H1 & H2).
    exists i. split; [exact Hi|]. unfold d, dual_value. split.
    - intros Hc. destruct (H1 Hc) as [Eo Hn]. rewrite Smu in Eo. exact (pt_dual _ _ _ Eo Hn).
    - intros Hc. rewrite (H2 Hc). reflexivity.
  Qed.
  Lemma bound_l c v b : In (c, SBound v b) CS -> ckd c = GreaterEqual -> exists i, In (v, i) v2i /\
    (hget Nat.eqb i (sp_lcons sp) = Some c -> d c = nth i pi 0) /\ (hget Nat.eqb i (sp_lcons sp) <> Some c -> d c = 0).
  Proof.
    intros Hin Ek. pose proof (Hd c _ Hin) as Ho. unfold dual_of in Ho. rewrite Ek in Ho. destruct Ho as (i & Hi & H1 & H2).
    exists i. split; [exact Hi|]. unfold d, dual_value. split.
    - intros Hc. destruct (H1 Hc) as [Eo Hn]. rewrite Spi in Eo. exact (pt_dual _ _ _ Eo Hn).
    - intros Hc. rewrite (H2 Hc). reflexivity.
  Qed.
  (** The dual of an inequality with a slack. *)
  Lemma row_u c sl v : In (c, sl) CS -> slack_of sl = [v] -> ckd c = LessEqual -> exists i, In (v, i) v2i /\ d c = nth i mu 0 /\ nth i mu 0 * nth i x 0 = 0.
  Proof.
    intros Hin Hs Ek. pose proof (Hd c _ Hin) as Ho. unfold dual_of in Ho. rewrite Ek in Ho.
    assert (G : exists i, In (v, i) v2i /\ d c = nth i mu 0).
    { destruct sl as [w b|r [w|]|r [w|]]; cbn in Hs; try discriminate; injection Hs as ->;
        destruct Ho as (i & Hi & Eo & Hn); exists i; (split; [exact Hi|]); rewrite Smu in Eo; exact (pt_dual _ _ _ Eo Hn). }
    destruct G as (i & Hi & Ed). exists i. split; [exact Hi|]. split; [exact Ed|].
    destruct (uslack st m sp k' Hh Hm E obj cs slots Em Hp c sl v Hin Ek Hs) as (j & Hj & Hc).
    rewrite (v2i_inj st m sp k' Hh Hm E _ _ _ Hj Hi) in Hc.
    assert (Hg : hget Nat.eqb i (sp_ucons sp) = Some c).
    { apply hget_nat; [|exact Hc].
      destruct (C29_well_formed st m (obj, cs) k' Hh Hm Em) as (sp' & E' & Hwf). rewrite E in E'. injection E' as <-. apply (wf_ucons _ Hwf). }
    destruct (u_resp v i c Hi Hg) as (_ & sl' & u & Hin' & Hz & Hc').
    destruct (slack_owner c sl v c sl' u Hin Hs Hin') as [_ <-]; [tauto|]. destruct Hc' as [->|[_ ->]]; [discriminate|]. lra.
  Qed.
  Lemma row_l c sl v : In (c, sl) CS -> slack_of sl = [v] -> ckd c = GreaterEqual -> exists i, In (v, i) v2i /\ d c = nth i pi 0 /\ nth i pi 0 * nth i x 0 = 0.
  Proof.
    intros Hin Hs Ek. pose proof (Hd c _ Hin) as Ho. unfold dual_of in Ho. rewrite Ek in Ho.
    assert (G : exists i, In (v, i) v2i /\ d c = nth i pi 0).
    { destruct sl as [w b|r [w|]|r [w|]]; cbn in Hs; try discriminate; injection Hs as ->;
        destruct Ho as (i & Hi & Eo & Hn); exists i; (split; [exact Hi|]); rewrite Spi in Eo; exact (pt_dual _ _ _ Eo Hn). }
    destruct G as (i & Hi & Ed). exists i. split; [exact Hi|]. split; [exact Ed|].
    destruct (lslack st m sp k' Hh Hm E obj cs slots Em Hp c sl v Hin Ek Hs) as (j & Hj & Hc).
    rewrite (v2i_inj st m sp k' Hh Hm E _ _ _ Hj Hi) in Hc.
    assert (Hg : hget Nat.eqb i (sp_lcons sp) = Some c).
    { apply hget_nat; [|exact Hc].
      destruct (C29_well_formed st m (obj, cs) k' Hh Hm Em) as (sp' & E' & Hwf). rewrite E in E'. injection E' as <-. apply (wf_lcons _ Hwf). }
    destruct (l_resp v i c Hi Hg) as (_ & sl' & u & Hin' & Hz & Hc').
    destruct (slack_owner c sl v c sl' u Hin Hs Hin') as [_ <-]; [tauto|]. destruct Hc' as [->|[_ ->]]; [discriminate|]. lra.
  Qed.
  Lemma slot_cases c sl : In (c, sl) CS -> ckd c <> Equal -> (exists v b, sl = SBound v b) \/ exists v, slack_of sl = [v].
  Proof.
    intros Hin Hk. pose proof (cs_ok st m sp cs slots Hp c sl Hin) as Ho.
    destruct sl as [w b|r [w|]|r [w|]]; [left; exists w, b; reflexivity|right; exists w; reflexivity| |right; exists w; reflexivity|];
      destruct Ho as (_ & Hs & _); contradiction.
  Qed.
  (** Rows and functions vanish at the point, so the difference is the slack. *)
  Lemma diff_is_slack c sl v i r : In (c, sl) CS -> slack_of sl = [v] -> In (v, i) v2i -> diff vs0 c = Some r -> r = nth i x 0.
  Proof.
    intros Hin Hs Hi Ed. pose proof (cs_ok st m sp cs slots Hp c sl Hin) as Ho.
    assert (Ef : fun_value c (Some v) vs0 = Some 0).
    { destruct Hf as (_ & Hrow & _ & _). destruct sl as [w b|r0 [w|]|r0 [w|]]; cbn in Hs; try discriminate; injection Hs as ->.
      - destruct Ho as (_ & _ & b & Eb & Hid). destruct (Hrow r0 b Eb) as (z & Ez & ->). unfold fun_value, vs0.
        rewrite <- Hid by (unfold pt; rewrite map_length; exact Hx). rewrite Ez. cbn. f_equal. lra.
      - apply Hfz with (r := r0). exact Hin. }
    unfold fun_value in Ef. rewrite Ed in Ef. cbn [slack_value] in Ef. rewrite (point_value v i Hi) in Ef. cbn in Ef. injection Ef as Ef. lra.
  Qed.
  Lemma d_sign c : In c (md_constraints m) -> ckd c <> Equal -> 0 <= d c.
  Proof.
    intros Hc Hk. destruct (cs_of st m sp cs slots Hp c Hc) as [sl Hin].
    destruct (slot_cases c sl Hin Hk) as [(v & b & ->)|(v & Hs)]; destruct (ckd c) eqn:Ek; try (destruct Hk; reflexivity).
    - destruct (bound_u c v b Hin Ek) as (i & Hi & H1 & H2). destruct (u_dec v i c _ Hi Hin) as [D|D]; [rewrite (H1 D); apply Hsign; exact (ix_lt v i Hi)|rewrite (H2 D); lra].
    - destruct (bound_l c v b Hin Ek) as (i & Hi & H1 & H2). destruct (l_dec v i c _ Hi Hin) as [D|D]; [rewrite (H1 D); apply Hsign; exact (ix_lt v i Hi)|rewrite (H2 D); lra].
    - destruct (row_u c sl v Hin Hs Ek) as (i & Hi & -> & _). apply Hsign. exact (ix_lt v i Hi).
    - destruct (row_l c sl v Hin Hs Ek) as (i & Hi & -> & _). apply Hsign. exact (ix_lt v i Hi).
  Qed.
  Lemma d_active c r : In c (md_constraints m) -> ckd c <> Equal -> diff vs0 c = Some r -> d c * r = 0.
  Proof.
    intros Hc Hk Er. destruct (cs_of st m sp cs slots Hp c Hc) as [sl Hin].
    destruct (slot_cases c sl Hin Hk) as [(v & b & ->)|(v & Hs)]; destruct (ckd c) eqn:Ek; try (destruct Hk; reflexivity).
    - pose proof (cs_ok st m sp cs slots Hp c _ Hin) as (_ & _ & Hdf). destruct (bound_u c v b Hin Ek) as (i & Hi & H1 & H2).
      rewrite Hdf, (point_value v i Hi) in Er. destruct b as [b|]; [|discriminate]. cbn in Er. injection Er as <-.
      destruct (u_dec v i c _ Hi Hin) as [D|D]; [rewrite (H1 D)|rewrite (H2 D); lra].
      destruct (u_resp v i c Hi D) as (_ & sl' & u & Hin' & Hz & Hc').
      destruct (cs_inj m Hnd slots c _ c sl' Hin Hin') as [_ <-]; [apply Nat.eqb_refl|]. destruct Hc' as [Hc'|[Hc' _]]; [|discriminate].
      injection Hc' as <-. lra.
    - pose proof (cs_ok st m sp cs slots Hp c _ Hin) as (_ & _ & Hdf). destruct (bound_l c v b Hin Ek) as (i & Hi & H1 & H2).
      rewrite Hdf, (point_value v i Hi) in Er. destruct b as [b|]; [|discriminate]. cbn in Er. injection Er as <-.
      destruct (l_dec v i c _ Hi Hin) as [D|D]; [rewrite (H1 D)|rewrite (H2 D); lra].
      destruct (l_resp v i c Hi D) as (_ & sl' & u & Hin' & Hz & Hc').
      destruct (cs_inj m Hnd slots c _ c sl' Hin Hin') as [_ <-]; [apply Nat.eqb_refl|]. destruct Hc' as [Hc'|[Hc' _]]; [|discriminate].
      injection Hc' as <-. lra.
    - destruct (row_u c sl v Hin Hs Ek) as (i & Hi & -> & Hz). rewrite (diff_is_slack c sl v i r Hin Hs Hi Er). exact Hz.
    - destruct (row_l c sl v Hin Hs Ek) as (i & Hi & -> & Hz). rewrite (diff_is_slack c sl v i r Hin Hs Hi Er). exact Hz.
  Qed.

  (** The bound constraints on one variable. *)
  Definition bu (v : nodeX) (e : constraint X * slot X) : R :=
    match ckd (fst e), snd e with LessEqual, SBound w _ => if ptr_eq w v then d (fst e) else 0 | _, _ => 0 end.
  Definition bl (v : nodeX) (e : constraint X * slot X) : R :=
    match ckd (fst e), snd e with GreaterEqual, SBound w _ => if ptr_eq w v then d (fst e) else 0 | _, _ => 0 end.
  Lemma bu_sum v i : model_var m v -> In (v, i) v2i -> total (map (bu v) CS) = nth i mu 0.
  Proof.
    intros Hmv Hi.
    assert (G : forall c w b, In (c, SBound w b) CS -> ckd c = LessEqual -> ptr_eq w v = true ->
              w = v /\ (hget Nat.eqb i (sp_ucons sp) = Some c -> d c = nth i mu 0) /\ (hget Nat.eqb i (sp_ucons sp) <> Some c -> d c = 0)).
    { intros c w b Hin Ek Ep. destruct (bound_u c w b Hin Ek) as (j & Hj & H1 & H2). destruct (ix_ptr _ _ _ _ Hj Hi Ep) as [-> ->]. auto. }
    destruct (hget Nat.eqb i (sp_ucons sp)) as [c0|] eqn:Hg.
    - destruct (u_resp v i c0 Hi Hg) as (Ek & sl & u & Hin & _ & [->|[Hs _]]).
      2:{ exfalso. destruct (slack_isvar c0 sl v Hin Hs). pose proof (var_old v Hmv). lia. }
      rewrite (total_one _ _ _ cs_nodup Hin).
      + unfold bu. cbn [fst snd]. rewrite Ek, ptr_eq_refl. destruct (G c0 v _ Hin Ek (ptr_eq_refl v)) as (_ & G1 & _). auto.
      + intros [c sl'] Hin' Hne. unfold bu. cbn [fst snd]. destruct (ckd c) eqn:Ek'; auto. destruct sl' as [w b| |]; auto.
        destruct (ptr_eq w v) eqn:Ep; auto. destruct (G c w b Hin' Ek' Ep) as (-> & _ & G2). apply G2. intros Eq. injection Eq as <-.
        apply Hne. f_equal. destruct (cs_inj m Hnd slots c0 _ c0 _ Hin Hin') as [_ Es]; [apply Nat.eqb_refl|]. symmetry. exact Es.
    - rewrite (mu_default v i Hi Hg). apply total_zero. intros [c sl'] Hin'. unfold bu. cbn [fst snd]. destruct (ckd c) eqn:Ek'; auto. destruct sl' as [w b| |]; auto.
      destruct (ptr_eq w v) eqn:Ep; auto. destruct (G c w b Hin' Ek' Ep) as (_ & _ & G2). apply G2. discriminate.
  Qed.
  Lemma bl_sum v i : model_var m v -> In (v, i) v2i -> total (map (bl v) CS) = nth i pi 0.
  Proof.
    intros Hmv Hi.
    assert (G : forall c w b, In (c, SBound w b) CS -> ckd c = GreaterEqual -> ptr_eq w v = true ->
              w = v /\ (hget Nat.eqb i (sp_lcons sp) = Some c -> d c = nth i pi 0) /\ (hget Nat.eqb i (sp_lcons sp) <> Some c -> d c = 0)).
    { intros c w b Hin Ek Ep. destruct (bound_l c w b Hin Ek) as (j & Hj & H1 & H2). destruct (ix_ptr _ _ _ _ Hj Hi Ep) as [-> ->]. auto. }
    destruct (hget Nat.eqb i (sp_lcons sp)) as [c0|] eqn:Hg.
    - destruct (l_resp v i c0 Hi Hg) as (Ek & sl & u & Hin & _ & [->|[Hs _]]).
      2:{ exfalso. destruct (slack_isvar c0 sl v Hin Hs). pose proof (var_old v Hmv). lia. }
      rewrite (total_one _ _ _ cs_nodup Hin).
      + unfold bl. cbn [fst snd]. rewrite Ek, ptr_eq_refl. destruct (G c0 v _ Hin Ek (ptr_eq_refl v)) as (_ & G1 & _). auto.
      + intros [c sl'] Hin' Hne. unfold bl. cbn [fst snd]. destruct (ckd c) eqn:Ek'; auto. destruct sl' as [w b| |]; auto.
        destruct (ptr_eq w v) eqn:Ep; auto. destruct (G c w b Hin' Ek' Ep) as (-> & _ & G2). apply G2. intros Eq. injection Eq as <-.
        apply Hne. f_equal. destruct (cs_inj m Hnd slots c0 _ c0 _ Hin Hin') as [_ Es]; [apply Nat.eqb_refl|]. symmetry. exact Es.
    - rewrite (pi_default v i Hi Hg). apply total_zero. intros [c sl'] Hin'. unfold bl. cbn [fst snd]. destruct (ckd c) eqn:Ek'; auto. destruct sl' as [w b| |]; auto.
      destruct (ptr_eq w v) eqn:Ep; auto. destruct (G c w b Hin' Ek' Ep) as (_ & _ & G2). apply G2. discriminate.
  Qed.

  (** The derivative of left minus right side. *)
  Definition pd (v : nodeX) (i : nat) (e : constraint X * slot X) : R :=
    match snd e with SBound w _ => if ptr_eq w v then 1 else 0 | _ => dv i e end.
  Lemma pd_partial v i c sl : model_var m v -> In (v, i) v2i -> In (c, sl) CS -> diff vs0 c <> None ->
    partial_of (fun vs => diff vs c) vs0 v (pd v i (c, sl)).
  Proof.
    intros Hmv Hi Hin Hdf. pose proof (var_is v Hmv) as Hv. destruct sl as [w b|r sl|r sl].
    - pose proof (cs_ok st m sp cs slots Hp c _ Hin) as (_ & Hw & Hid). unfold pd. cbn [snd].
      rewrite Hid in Hdf. destruct (evaluate vs0 w) as [zw|] eqn:Ezw; [|destruct Hdf; reflexivity].
      destruct b as [b|]; [|destruct Hdf; reflexivity].
      exists (nth i x 0). split; [exact (point_value v i Hi)|]. destruct (ptr_eq w v) eqn:Ep.
      + eapply (hd_ext (fun t => Some (1 * t + - b))).
        * intros t. rewrite Hid, evaluate_upd_same; auto. cbn. f_equal. lra.
        * exists (mkposreal 1 Rlt_0_1), (fun t => 1 * t + - b). split; [reflexivity|apply line_deriv].
      + eapply (hd_ext (fun t => Some (zw - b))); [|apply hd_const].
        intros t. rewrite Hid, evaluate_upd_other, Ezw; auto.
    - pose proof (dv_partial v i c (SRow r sl) Hi Hin ltac:(intros; discriminate)) as Hp1. unfold pd. cbn [snd].
      exact (drop_slack v i c (SRow r sl) _ Hmv Hi Hin Hp1).
    - pose proof (dv_partial v i c (SFun r sl) Hi Hin ltac:(intros; discriminate)) as Hp1. unfold pd. cbn [snd].
      exact (drop_slack v i c (SFun r sl) _ Hmv Hi Hin Hp1).
  Qed.

  Theorem lagrange_core v : model_var m v -> Forall (fun c => diff vs0 c <> None) (md_constraints m) ->
    exists g ds, partial_of (obj_value m) vs0 v g /\
    Forall2 (fun c l => partial_of (fun vs => diff vs c) vs0 v l) (md_constraints m) ds /\
    g = total (map (fun cl => signed (ckd (fst cl)) (d (fst cl)) * snd cl) (combine (md_constraints m) ds)).
  Proof.
    intros Hmv Hdf. destruct (var_ix v Hmv) as [i Hi]. destruct (obj_sum v i Hi) as (g & Hg & Eg).
    exists g, (map (pd v i) CS). split; [exact Hg|]. pose proof (cs_len st m sp cs slots Hp) as Hl. split.
    - assert (G : forall l l', length l = length l' -> (forall e, In e (combine l l') -> In e CS) -> Forall (fun c => diff vs0 c <> None) l ->
                Forall2 (fun c z => partial_of (fun vs => diff vs c) vs0 v z) l (map (pd v i) (combine l l'))).
      { induction l as [|c l IH]; intros [|sl l'] Hl' HC HF; cbn in Hl'; try discriminate; cbn; constructor.
        - apply pd_partial; auto; [apply HC; left; reflexivity|]. inversion HF; assumption.
        - apply IH; [congruence|intros e He; apply HC; right; exact He|inversion HF; assumption]. }
      apply G; auto.
    - assert (Ec : forall l l', length l = length l' -> combine l (map (pd v i) (combine l l')) = map (fun e : constraint X * slot X => (fst e, pd v i e)) (combine l l')).
      { induction l as [|c l IH]; intros [|sl l'] Hl'; cbn in Hl'; try discriminate; cbn; [reflexivity|]. f_equal. apply IH. congruence. }
      unfold CS at 1. rewrite (Ec _ _ Hl), map_map. cbn [fst snd]. fold CS.
      rewrite Eg, <- (bu_sum v i Hmv Hi), <- (bl_sum v i Hmv Hi).
      rewrite (total_ext (fun e => signed (ckd (fst e)) (d (fst e)) * pd v i e) (fun e => (yv e * dv i e + - bu v e) + bl v e)).
      + rewrite !total_plus, total_opp. lra.
      + intros [c sl] Hin. unfold bu, bl, pd. cbn [fst snd]. destruct sl as [w b|r sl|r sl].
        * unfold yv, dv. cbn [snd]. pose proof (cs_ok st m sp cs slots Hp c _ Hin) as (Hb & _). unfold bounds_with in Hb.
          destruct (ckd c); [destruct Hb| |]; destruct (ptr_eq w v); unfold signed; lra.
        * rewrite <- (y_signed c _ Hin) by (intros; discriminate). destruct (ckd c); lra.
        * rewrite <- (y_signed c _ Hin) by (intros; discriminate). destruct (ckd c); lra.
  Qed.

  Theorem lagrange_at : model_feasible m vs0 -> lagrange m vs0 (dual_value m').
  Proof.
    intros Hfe. assert (Hdf : Forall (fun c => diff vs0 c <> None) (md_constraints m)).
    { destruct Hfe as [_ F2]. rewrite Forall_forall in F2 |- *. intros c Hc. destruct (F2 c Hc) as (a & b & Ea & Eb & _).
      unfold diff. rewrite Ea, Eb. discriminate. }
    constructor; [exact Hfe|exact d_sign|exact d_active|].
    intros v Hmv. exact (lagrange_core v Hmv Hdf).
  Qed.
End Core.

(** Partial derivatives depend on the model's variables only. *)
Lemma partial_ext (F : valsX -> X) vs vs' v l : is_var v = true -> evaluate vs v = evaluate vs' v ->
  (forall t, F (upd vs v t) = F (upd vs' v t)) -> partial_of F vs v l -> partial_of F vs' v l.
Proof.
  intros _ Ev Hf (x0 & Ex & Hd). exists x0. split; [rewrite <- Ev; exact Ex|]. eapply hd_ext; [|exact Hd]. intros t. apply Hf.
Qed.
Lemma lagrange_ext (m : model X) vs vs' d : (forall v, model_var m v -> evaluate vs v = evaluate vs' v) ->
  lagrange m vs d -> lagrange m vs' d.
Proof.
  intros Hv L.
  assert (Hiv : forall v, model_var m v -> is_var v = true).
  { intros v [Ho|(c & _ & [Ho|Ho])]; [destruct (md_objective m); [apply Ho|apply Ho|destruct Ho]|apply Ho|apply Ho]. }
  assert (Hup : forall v t w, model_var m v -> model_var m w -> evaluate (upd vs v t) w = evaluate (upd vs' v t) w).
  { intros v t w Hmv Hmw. destruct (ptr_eq w v) eqn:Ep.
    - rewrite !evaluate_upd_same; auto.
    - rewrite !evaluate_upd_other; auto. }
  assert (Hd : forall a a' c, In c (md_constraints m) -> (forall w, model_var m w -> evaluate a w = evaluate a' w) -> diff a c = diff a' c).
  { intros a a' c Hc Ha. unfold diff. f_equal; apply evaluate_ext; intros w Ho; apply Ha; right; eauto. }
  assert (Ho : forall a a', (forall w, model_var m w -> evaluate a w = evaluate a' w) -> obj_value m a = obj_value m a').
  { intros a a' Ha. unfold obj_value. unfold model_var in Ha. destruct (md_objective m) as [f|f|]; auto; [|f_equal]; apply evaluate_ext; auto. }
  destruct L as [[F1 F2] Ls La Lg]. constructor.
  - split.
    + intros v Hmv. rewrite <- (Hv v Hmv). exact (F1 v Hmv).
    + rewrite Forall_forall in F2 |- *. intros c Hc. destruct (F2 c Hc) as (a & b & Ea & Eb & Hr). exists a, b.
      rewrite <- (evaluate_ext vs vs' (clhs c)), <- (evaluate_ext vs vs' (crhs c)); auto; intros w Hw; apply Hv; right; eauto.
  - exact Ls.
  - intros c r Hc Hk Er. apply (La c r Hc Hk). rewrite (Hd vs vs' c Hc Hv). exact Er.
  - intros v Hmv. destruct (Lg v Hmv) as (g & ds & Hg & Hds & Eg). exists g, ds. split; [|split; [|exact Eg]].
    + eapply partial_ext; [apply Hiv; exact Hmv|apply Hv; exact Hmv| |exact Hg]. intros t. apply Ho. intros w Hw. apply Hup; auto.
    + clear Eg. assert (G : forall cs ds', Forall (fun c => In c (md_constraints m)) cs ->
        Forall2 (fun c l => partial_of (fun a => diff a c) vs v l) cs ds' -> Forall2 (fun c l => partial_of (fun a => diff a c) vs' v l) cs ds').
      { intros cs ds' HF H2. induction H2 as [|c l cs ds' Hc H2 IH]; [constructor|]. inversion HF; subst. constructor; [|apply IH; assumption].
        eapply partial_ext; [apply Hiv; exact Hmv|apply Hv; exact Hmv| |exact Hc]. intros t. cbn beta. apply Hd; [assumption|]. intros w Hw. apply Hup; auto. }
      apply G; [apply Forall_forall; auto|exact Hds].
Qed.
