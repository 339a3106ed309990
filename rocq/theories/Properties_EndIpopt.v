(** Property C58: a model solved with Ipopt. *)
From Verif Require Import Base Num Node NodeInd NodeDiff NodeStd Constraint Matrix Problem ModelStd Model
     ExprSpec World MapProofs Properties_Diff StdPropProofs EvalProofs DiffSpec DiffProofs DerivProofs GradProofs HessProofs ConstrSpec ConstrProofs ConstrEquiv PartsProofs
     MatSpec MatrixProofs ProblemProofs BuildProofs BuildMain ModelSpec PointProofs EvalRun SlotProofs EvalSpec StdFacts
     Api ApiProofs ModelApi StdMain HistProofs ModelExample Properties_Constr Properties_Std Properties_Feas SolveProofs
     Properties_Eval Properties_HashSol Properties_Solve KktSpec KktProofs Properties_Kkt SolverBase Properties_Cmd Ipopt IpoptSpec IpoptProofs Properties_Ipopt EndSpec.
From Coq Require Import Reals Lra.
Local Open Scope R_scope.

(** ** Second derivatives of linear combinations *)
Lemma spo_plus F G vs v w a b : second_partial_of F vs v w a -> second_partial_of G vs v w b ->
  second_partial_of (fun vs => x2 Rplus (F vs) (G vs)) vs v w (a + b).
Proof.
  intros (x & d1 & g1 & Ex & H1 & L1) (x' & d2 & g2 & Ex' & H2 & L2). rewrite Ex in Ex'. injection Ex' as <-.
  assert (Hd : 0 < Rmin d1 d2) by (apply Rmin_glb_lt; apply cond_pos).
  exists x, (mkposreal _ Hd), (fun t => g1 t + g2 t). split; [exact Ex|]. split.
  - intros t Ht. cbn in Ht. destruct (H1 t) as (y & Ey & D1); [eapply Rlt_le_trans; [exact Ht|apply Rmin_l]|].
    destruct (H2 t) as (y' & Ey' & D2); [eapply Rlt_le_trans; [exact Ht|apply Rmin_r]|].
    rewrite Ey in Ey'. injection Ey' as <-. exists y. split; [exact Ey|]. exact (hd_plus _ _ _ _ _ D1 D2).
  - apply derivable_pt_lim_plus; assumption.
Qed.
Lemma spo_scale F vs v w a s : second_partial_of F vs v w a ->
  second_partial_of (fun vs => x2 Rmult (Some s) (F vs)) vs v w (s * a).
Proof.
  intros (x & d & g & Ex & H & L). exists x, d, (fun t => s * g t). split; [exact Ex|]. split.
  - intros t Ht. destruct (H t Ht) as (y & Ey & D). exists y. split; [exact Ey|].
    destruct (hd_value _ _ _ D) as [z Ez].
    eapply hd_eq; [|exact (hd_mult (fun _ => Some s) _ y 0 (g t) s z eq_refl Ez (hd_const s y) D)]. lra.
  - apply derivable_pt_lim_scal. exact L.
Qed.
Lemma spo_zero vs v w x : evaluate vs w = Some x -> (forall t, exists y, evaluate (upd vs w t) v = Some y) ->
  forall F c, (forall vs', F vs' = Some c) -> second_partial_of F vs v w 0.
Proof.
  intros Ex Ey F c HF. exists x, (mkposreal 1 Rlt_0_1), (fun _ => 0). split; [exact Ex|]. split.
  - intros t _. destruct (Ey t) as [y Hy]. exists y. split; [exact Hy|]. eapply hd_ext; [|exact (hd_const c y)]. intros t'. symmetry. apply HF.
  - apply derivable_pt_lim_const.
Qed.
Lemma spo_ext F G vs v w a : (forall vs, F vs = G vs) -> second_partial_of F vs v w a -> second_partial_of G vs v w a.
Proof.
  intros HE (x & d & g & Ex & H & L). exists x, d, g. split; [exact Ex|]. split; [|exact L].
  intros t Ht. destruct (H t Ht) as (y & Ey & D). exists y. split; [exact Ey|]. eapply hd_ext; [|exact D]. intros t'. apply HE.
Qed.
Lemma spo_sum {A} (G : A -> valsX -> X) (a D : A -> R) l vs v w x :
  evaluate vs w = Some x -> (forall t, exists y, evaluate (upd vs w t) v = Some y) ->
  (forall e, In e l -> second_partial_of (G e) vs v w (D e)) ->
  second_partial_of (fun vs => xsum (map (fun e => x2 Rmult (Some (a e)) (G e vs)) l)) vs v w (total (map (fun e => a e * D e) l)).
Proof.
  intros Ex Ey. induction l as [|e l IH]; intros Hl.
  - eapply (spo_zero vs v w x Ex Ey _ 0). reflexivity.
  - cbn [map]. rewrite total_cons. eapply spo_ext; [intros vs'; symmetry; apply xsum_cons|].
    apply (spo_plus (fun vs => x2 Rmult (Some (a e)) (G e vs))); [apply spo_scale; apply Hl; left; reflexivity|].
    apply IH. intros e' He'. apply Hl. right. exact He'.
Qed.
Lemma total_perm l l' : Permutation l l' -> total l = total l'.
Proof. induction 1; rewrite ?total_cons; lra. Qed.

(** ** Entries of matrices given by positions *)
Lemma entry_at_pos (l : list (nat * nat * X)) i j :
  entry_at (map (fun e => Z.of_nat (fst (fst e))) l) (map (fun e => Z.of_nat (snd (fst e))) l) (map snd l) i j =
  xsum (map snd (filter (fun e => (fst (fst e) =? i)%nat && (snd (fst e) =? j)%nat) l)).
Proof.
  unfold entry_at. f_equal. induction l as [|[[a b] v] l IH]; [reflexivity|]. cbn [map combine filter fst snd].
  assert (Ea : (Z.of_nat a =? Z.of_nat i)%Z = (a =? i)%nat) by (destruct (Nat.eqb_spec a i), (Z.eqb_spec (Z.of_nat a) (Z.of_nat i)); auto; lia).
  assert (Eb : (Z.of_nat b =? Z.of_nat j)%Z = (b =? j)%nat) by (destruct (Nat.eqb_spec b j), (Z.eqb_spec (Z.of_nat b) (Z.of_nat j)); auto; lia).
  rewrite Ea, Eb. destruct ((a =? i)%nat && (b =? j)%nat); cbn [map snd]; [f_equal|]; exact IH.
Qed.
Lemma xsum_scale s l : xsum (map (x2 Rmult (Some s)) l) = x2 Rmult (Some s) (xsum l).
Proof.
  induction l as [|[a|] l IH]; [cbn; f_equal; lra| |]; cbn [map]; rewrite !xsum_cons, IH; destruct (xsum l); cbn; try reflexivity. f_equal. lra.
Qed.
Lemma scaled_at s (h : coo X) i j :
  xsum (map snd (filter (fun e => (fst (fst e) =? i)%nat && (snd (fst e) =? j)%nat) (scaled (Some s) h))) = x2 Rmult (Some s) (coo_at h i j).
Proof.
  unfold coo_at, scaled. rewrite <- xsum_scale. f_equal.
  assert (G : forall l : list (nat * nat * X), map snd (filter (fun e => (fst (fst e) =? i)%nat && (snd (fst e) =? j)%nat) (map (fun e : nat * nat * X => (fst e, nmul (Some s) (snd e))) l)) =
    map (x2 Rmult (Some s)) (map snd (filter (fun e => (fst (fst e) =? i)%nat && (snd (fst e) =? j)%nat) l))).
  { induction l as [|[[a b] v] l IH]; [reflexivity|]. cbn [map filter fst snd].
    destruct ((a =? i)%nat && (b =? j)%nat); cbn [map snd]; [f_equal|]; exact IH. }
  exact (G (entries h)).
Qed.
Lemma scaled_all (D : nat -> R) i j : forall (hs : list (coo X)) (ys : list R) o, length ys = length hs ->
  (forall r h, nth_error hs r = Some h -> coo_at h i j = Some (D (o + r)%nat)) ->
  xsum (map snd (filter (fun e => (fst (fst e) =? i)%nat && (snd (fst e) =? j)%nat) (flat_map (fun hn => scaled (snd hn) (fst hn)) (combine hs (pt ys))))) =
  Some (total (map (fun r => nth r ys 0 * D (o + r)%nat) (seq 0 (length hs)))).
Proof.
  induction hs as [|h hs IH]; intros [|y ys] o L HD; try discriminate; [reflexivity|].
  cbn [pt map combine flat_map fst snd]. rewrite filter_app, map_app, xsum_app, scaled_at, (HD 0%nat h eq_refl).
  specialize (IH ys (Datatypes.S o)). unfold pt in IH. rewrite IH; [|cbn in L; lia|].
  - cbn [length seq map nth]. rewrite total_cons, <- seq_shift, map_map. cbn [x2]. f_equal. f_equal. apply total_ext. intros r _.
    cbn [nth]. f_equal. f_equal. lia.
  - intros r h' Hr. rewrite (HD (Datatypes.S r) h' Hr). f_equal. f_equal. lia.
Qed.
Lemma entries_rows (m : coo X) off : rows_at off m = map (fun e => Z.of_nat (off + fst (fst e))) (entries m).
Proof. reflexivity. Qed.

Lemma nth_error_combine {A B} (l : list A) (l' : list B) k a b : nth_error l k = Some a -> nth_error l' k = Some b -> nth_error (combine l l') k = Some (a, b).
Proof.
  revert l' k. induction l as [|y l IH]; intros [|y' l'] [|k] Ha Hb; cbn in *; try discriminate; [congruence|]. apply IH; assumption.
Qed.
Lemma nth_skipn {A} n : forall (l : list A) i d, nth i (skipn n l) d = nth (n + i) l d.
Proof. induction n as [|n IH]; intros [|a l] i d; cbn; auto. destruct i; reflexivity. Qed.
(** *** The rows of [A], then those of [J] *)
Definition moved (off : nat) (l : list (nat * nat * X)) : list (nat * nat * X) := map (fun e => ((off + fst (fst e))%nat, snd (fst e), snd e)) l.
Lemma jac_entry (q0 : minlp X) (j' : coo X) k i : coo_wf (m_a q0) -> coo_wf (b_j (m_bufs q0)) -> coo_wf j' ->
  map fst (entries j') = map fst (entries (b_j (m_bufs q0))) ->
  entry_at (jac_rows q0) (jac_cols q0) (coo_data (m_a q0) ++ coo_data j') k i =
  xsum (map snd (filter (fun e => (fst (fst e) =? k)%nat && (snd (fst e) =? i)%nat) (entries (m_a q0) ++ moved (m_na q0) (entries j')))).
Proof.
  intros Wa Wj Wj' Ep. rewrite <- entry_at_pos. f_equal.
  - unfold jac_rows, rows_at. rewrite map_app. f_equal. unfold moved. rewrite map_map. cbn [fst snd].
    transitivity (map (fun p : nat * nat => Z.of_nat (m_na q0 + fst p)) (map fst (entries (b_j (m_bufs q0))))); [rewrite map_map; reflexivity|].
    rewrite <- Ep, map_map. reflexivity.
  - unfold jac_cols, cols_at. rewrite map_app. f_equal. unfold moved. rewrite map_map. cbn [fst snd].
    transitivity (map (fun p : nat * nat => Z.of_nat (snd p)) (map fst (entries (b_j (m_bufs q0))))); [rewrite map_map; reflexivity|].
    rewrite <- Ep, map_map. reflexivity.
  - rewrite map_app, (entries_data _ Wa). f_equal. unfold moved. rewrite map_map. cbn [snd]. symmetry. exact (entries_data _ Wj').
Qed.
Lemma filter_none {A} (f : A -> bool) l : (forall a, In a l -> f a = false) -> filter f l = [].
Proof. induction l as [|a l IH]; intros Hf; [reflexivity|]. cbn. rewrite (Hf a (or_introl eq_refl)). apply IH. intros b Hb. apply Hf. right. exact Hb. Qed.
Lemma jac_row (A j' : coo X) na k i : indices_ok A -> coo_rows A = na -> (k < na)%nat ->
  xsum (map snd (filter (fun e => (fst (fst e) =? k)%nat && (snd (fst e) =? i)%nat) (entries A ++ moved na (entries j')))) = coo_at A k i.
Proof.
  intros HA Hr Hk. rewrite filter_app, map_app, (filter_none _ (moved na _)); [rewrite app_nil_r; reflexivity|].
  intros [[a b] v] Hin. unfold moved in Hin. apply in_map_iff in Hin as (e & Ee & _). injection Ee as <- _ _. cbn [fst].
  rewrite (proj2 (Nat.eqb_neq _ _)) by lia. reflexivity.
Qed.
Lemma jac_fun (A j' : coo X) na r i : indices_ok A -> coo_rows A = na ->
  xsum (map snd (filter (fun e => (fst (fst e) =? na + r)%nat && (snd (fst e) =? i)%nat) (entries A ++ moved na (entries j')))) = coo_at j' r i.
Proof.
  intros HA Hr. rewrite filter_app, map_app, (filter_none _ (entries A)).
  - cbn [map app]. unfold coo_at, moved. f_equal. induction (entries j') as [|[[a b] v] l IH]; [reflexivity|]. cbn [map filter fst snd].
    assert (Ea : (na + a =? na + r)%nat = (a =? r)%nat) by (destruct (Nat.eqb_spec a r), (Nat.eqb_spec (na + a) (na + r)); auto; lia).
    rewrite Ea. destruct ((a =? r)%nat && (b =? i)%nat); cbn [map snd]; [f_equal|]; exact IH.
  - intros [[a b] v] Hin. cbn [fst]. destruct (HA a b v Hin) as [Ha _]. rewrite (proj2 (Nat.eqb_neq _ _)) by lia. reflexivity.
Qed.

Section Told.
  Context `{HashOrd}.
  Variables (st : mstate X) (m : model X) (sp : std_prob X) (k' : nat).
  Hypothesis Hh' : hist any_op st.
  Hypothesis Hm : In m (st_models st).
  Hypothesis E : std_problem m (st_k st) = Ok (sp, k').
  Variables (obj : std_comp X) (cs : cstd X) (slots : list (slot X)).
  Hypothesis Em : model_std m (st_k st) = Ok ((obj, cs), k').
  Hypothesis Hp : placed (st_k st) m cs sp slots.
  Let CS := combine (md_constraints m) slots.
  Let P := base_of (sp_prob sp).
  Let v2i := sp_var2index sp.
  Let fs := functions m slots (length (m_b P)).

  Lemma fs_in k c sl : In (k, c, sl) fs <-> In (c, SRow k sl) CS \/ exists r, k = (length (m_b P) + r)%nat /\ In (c, SFun r sl) CS.
  Proof.
    unfold fs, functions. rewrite in_flat_map. fold CS. split.
    - intros ([c' s] & Hin & Hs). cbn [fst snd] in Hs. destruct s as [v b|r s|r s]; [destruct Hs| |]; destruct Hs as [Hs|[]]; injection Hs as <- <- <-; eauto.
    - intros [Hin|(r & -> & Hin)]; [exists (c, SRow k sl)|exists (c, SFun r sl)]; (split; [exact Hin|left; reflexivity]).
  Qed.
  Lemma fs_keys : Permutation (map (fun e => fst (fst e)) fs) (seq 0 (length (m_b P)) ++ map (fun r => (length (m_b P) + r)%nat) (seq 0 (length (cs_f cs)))).
  Proof.
    rewrite <- (pl_funs _ _ _ _ _ Hp). 
    assert (Er : seq 0 (length (m_b P)) = flat_map row_no slots) by (symmetry; exact (pl_rows _ _ _ _ _ Hp)). rewrite Er. clear Er. unfold fs, functions.
    pose proof (cs_len st m sp cs slots Hp) as L. generalize (length (m_b P)). intros na. revert L.
    generalize (md_constraints m) as l. clear. induction slots as [|s ss IH]; intros [|c l] L; try discriminate; [constructor|].
    cbn [combine flat_map]. specialize (IH l (eq_add_S _ _ L)). rewrite map_app, !map_app.
    destruct s as [v b|r s|r s]; cbn [fst snd map app row_no fun_no].
    - exact IH.
    - constructor. exact IH.
    - eapply perm_trans; [apply perm_skip; exact IH|]. apply Permutation_middle.
  Qed.
  Lemma row_lt c r sl : In (c, SRow r sl) CS -> (r < length (m_b P))%nat.
  Proof.
    intros Hin. pose proof (cs_ok st m sp cs slots Hp c _ Hin) as (_ & _ & b & Eb & _). apply nth_error_Some. unfold P. rewrite Eb. discriminate.
  Qed.

  Variable x : list R.
  Hypothesis Hx : length x = m_nx P.
  Let vs0 := at_point sp (pt x).

  (** Rows of A are gradients wherever they are defined. *)
  Lemma row_line c r sl : In (c, SRow r sl) CS -> fun_value c sl vs0 <> None ->
    gradient_at v2i (fun_value c sl) vs0 (fun i => Some (coo_at (m_a P) r i)).
  Proof.
    intros Hin Hdef v i Hv. pose proof (cs_ok st m sp cs slots Hp c _ Hin) as (_ & _ & b & Eb & Hid).
    assert (Ez : exists z b', ax_row (sp_prob sp) r (pt x) = Some z /\ b = Some b').
    { unfold fun_value in Hdef. unfold vs0 in Hdef. rewrite <- Hid in Hdef by (unfold pt; rewrite map_length; exact Hx).
      destruct (ax_row (sp_prob sp) r (pt x)) as [z|]; [|destruct Hdef; reflexivity]. destruct b as [b'|]; [|destruct Hdef; reflexivity]. eauto. }
    destruct Ez as (z & b' & Ez & ->).
    destruct (row_dot_line _ x i z (ix_lt st m sp k' Hh' Hm E x Hx v i Hv) Ez) as (s & K & Es & Hl).
    exists s. split; [f_equal; rewrite coo_at_row; exact Es|]. exists (nth i x 0). split; [exact (point_value st m sp k' Hh' Hm E x v i Hv)|].
    exists (mkposreal 1 Rlt_0_1), (fun t => s * t + (K - b')). split.
    - intros t _. transitivity (fun_value c sl (at_point sp (pt (set_nth x i t)))).
      + assert (Eh : sl = hd_error (slack_of (SRow r sl))) by (destruct sl; reflexivity). rewrite Eh.
        apply (fun_ext st m sp k' Hh' Hm E obj cs slots Em Hp _ _ c (SRow r sl) Hin). exact (point_upd st m sp k' Hh' Hm E x Hx v i t Hv).
      + unfold fun_value. rewrite <- Hid by (unfold pt; rewrite map_length, set_nth_len; exact Hx).
        unfold ax_row. rewrite (Hl t). cbn. f_equal. lra.
    - apply line_deriv.
  Qed.
  Lemma partial_agree c s A B v i l : In (c, s) CS -> (forall u j, In (u, j) v2i -> evaluate A u = evaluate B u) -> In (v, i) v2i ->
    partial_of (fun_value c (hd_error (slack_of s))) A v l -> partial_of (fun_value c (hd_error (slack_of s))) B v l.
  Proof.
    intros Hin HAB Hv (x0 & Ex & Hd). exists x0. split; [rewrite <- (HAB v i Hv); exact Ex|]. eapply hd_ext; [|exact Hd]. intros t.
    apply (fun_ext st m sp k' Hh' Hm E obj cs slots Em Hp _ _ c s Hin). intros u j Hu.
    pose proof (ix_isvar st m sp k' Hh' Hm E u j Hu) as Iu.
    destruct (ptr_eq u v) eqn:Ep; [rewrite !evaluate_upd_same; auto|rewrite !evaluate_upd_other by auto; apply (HAB u j Hu)].
  Qed.
End Told.
Section Told2.
  Context `{HashOrd}.
  Variables (st : mstate X) (m : model X) (sp : std_prob X) (k' : nat).
  Hypothesis Hh' : hist any_op st.
  Hypothesis Hm : In m (st_models st).
  Hypothesis E : std_problem m (st_k st) = Ok (sp, k').
  Variables (obj : std_comp X) (cs : cstd X) (slots : list (slot X)).
  Hypothesis Em : model_std m (st_k st) = Ok ((obj, cs), k').
  Hypothesis Hp : placed (st_k st) m cs sp slots.
  Let CS := combine (md_constraints m) slots.
  Let P := base_of (sp_prob sp).
  Let v2i := sp_var2index sp.
  Let fs := functions m slots (length (m_b P)).
  Variable x : list R.
  Hypothesis Hx : length x = m_nx P.
  Let vs0 := at_point sp (pt x).

  (** Rows have no second derivatives. *)
  Lemma row_flat c r sl v i w j : In (c, SRow r sl) CS -> fun_value c sl vs0 <> None -> In (v, i) v2i -> In (w, j) v2i ->
    second_partial_of (fun_value c sl) vs0 v w 0.
  Proof.
    intros Hin Hdef Hv Hw. pose proof (cs_ok st m sp cs slots Hp c _ Hin) as (_ & _ & b & Eb & Hid).
    assert (Ez : exists z b', ax_row (sp_prob sp) r (pt x) = Some z /\ b = Some b').
    { unfold fun_value in Hdef. unfold vs0 in Hdef. rewrite <- Hid in Hdef by (unfold pt; rewrite map_length; exact Hx).
      destruct (ax_row (sp_prob sp) r (pt x)) as [z|]; [|destruct Hdef; reflexivity]. destruct b as [b'|]; [|destruct Hdef; reflexivity]. eauto. }
    destruct Ez as (z & b' & Ez & ->).
    destruct (row_dot_line _ x j z (ix_lt st m sp k' Hh' Hm E x Hx w j Hw) Ez) as (s & K & Es & Hl).
    exists (nth j x 0), (mkposreal 1 Rlt_0_1), (fun _ => valx (coo_at (m_a P) r i)).
    split; [exact (point_value st m sp k' Hh' Hm E x w j Hw)|]. split; [|apply derivable_pt_lim_const].
    intros t _. set (x' := set_nth x j t). assert (Hx' : length x' = m_nx P) by (unfold x'; rewrite set_nth_len; exact Hx).
    assert (Hdef' : fun_value c sl (at_point sp (pt x')) <> None).
    { unfold fun_value. rewrite <- Hid by (unfold pt; rewrite map_length; exact Hx'). unfold ax_row, x'. rewrite (Hl t). discriminate. }
    destruct (row_line st m sp k' Hh' Hm E obj cs slots Em Hp x' Hx' c r sl Hin Hdef' v i Hv) as (l & El & Hpl). injection El as El.
    unfold P. rewrite El. cbn [valx].
    assert (Eh : sl = hd_error (slack_of (SRow r sl))) by (destruct sl; reflexivity). rewrite Eh in Hpl |- *.
    refine (partial_agree st m sp k' Hh' Hm E obj cs slots Em Hp c (SRow r sl) _ _ v i l Hin _ Hv Hpl).
    intros u j' Hu. symmetry. exact (point_upd st m sp k' Hh' Hm E x Hx w j t Hw u j' Hu).
  Qed.

  (** What the buffers hold after an evaluation, for linear and nonlinear problems. *)
  Record holds_values (shift : X) (bf : bufs X) : Prop := {
    hv_phi : obj_value m vs0 = x2 Rplus (b_phi bf) shift;
    hv_g : obj_value m vs0 <> None -> gradient_at v2i (obj_value m) vs0 (nth_error (b_gphi bf));
    hv_h : obj_value m vs0 <> None -> hessian_at v2i (obj_value m) vs0 (b_hphi bf);
    hv_nf : length (b_f bf) = length (cs_f cs);
    hv_nh : length (b_h bf) = length (cs_f cs);
    hv_f : forall c r sl, In (c, SFun r sl) CS -> nth_error (b_f bf) r = Some (fun_value c sl vs0);
    hv_j : forall c r sl, In (c, SFun r sl) CS -> fun_value c sl vs0 <> None ->
      gradient_at v2i (fun_value c sl) vs0 (fun i => Some (coo_at (b_j bf) r i));
    hv_hs : forall c r sl, In (c, SFun r sl) CS -> fun_value c sl vs0 <> None ->
      exists h, nth_error (b_h bf) r = Some h /\ hessian_at v2i (fun_value c sl) vs0 h
  }.
  Variables (shift : X) (bf : bufs X).
  Hypothesis Hv : values_at P (pt x) bf.
  Hypothesis HV : holds_values shift bf.
  Hypothesis Hs : nlp_sane P.

  Let na := length (m_b P).
  Lemma bf_fixed : exists q, m_bufs q = bf /\ fixed P q.
  Proof. destruct (shape_of P (pt x) bf Hv) as (q & He & Eq). exists q. split; [exact Eq|exact (fixed_ok P q Hs He)]. Qed.
  Lemma fixed_start : fixed P P.
  Proof. apply fixed_ok; [exact Hs|constructor]. Qed.
  Lemma fs_len : length fs = (na + length (cs_f cs))%nat.
  Proof.
    pose proof (Permutation_length (fs_keys st m sp cs slots Hp)) as L. rewrite map_length, app_length, seq_length, map_length, seq_length in L. exact L.
  Qed.
  Lemma told_g : length (residuals P (pt x) ++ b_f bf) = length fs /\
    forall k c sl, In (k, c, sl) fs -> nth_error (residuals P (pt x) ++ b_f bf) k = Some (fun_value c sl vs0).
  Proof.
    destruct bf_fixed as (q & Eq & F).
    assert (Lr : length (residuals P (pt x)) = na).
    { unfold residuals. rewrite map_length, combine_length, map_length, seq_length, (fx_lb _ _ F). unfold na. rewrite (fx_lb _ _ F). apply Nat.min_id. }
    split; [rewrite app_length, Lr, (hv_nf _ _ HV), fs_len; reflexivity|].
    intros k c sl Hin. apply (fs_in m sp slots) in Hin as [Hin|(r & -> & Hin)].
    - assert (Hk : (k < na)%nat) by exact (row_lt st m sp cs slots Hp c k sl Hin). rewrite nth_error_app1 by lia.
      pose proof (cs_ok st m sp cs slots Hp c _ Hin) as (_ & _ & b & Eb & Hid). unfold fun_value, vs0. rewrite <- Hid by (unfold pt; rewrite map_length; exact Hx).
      unfold residuals. rewrite nth_error_map.
      assert (Ec : nth_error (combine (map (fun r => row_dot (row_of r (entries (m_a P))) (pt x)) (seq 0 (coo_rows (m_a P)))) (m_b P)) k =
                   Some (ax_row (sp_prob sp) k (pt x), b)).
      { apply nth_error_combine; [|exact Eb]. rewrite nth_error_map, (nth_error_nth' _ 0%nat) by (rewrite seq_length, <- (fx_lb _ _ F); exact Hk).
        rewrite seq_nth by (rewrite <- (fx_lb _ _ F); exact Hk). reflexivity. }
      rewrite Ec. reflexivity.
    - fold P na. rewrite nth_error_app2 by lia. rewrite Lr. replace (na + r - na)%nat with r by lia. exact (hv_f _ _ HV c r sl Hin).
  Qed.
  Lemma told_j : length (coo_data (m_a P) ++ coo_data (b_j bf)) = nnzj P /\
    forall k c sl, In (k, c, sl) fs -> fun_value c sl vs0 <> None ->
      gradient_at v2i (fun_value c sl) vs0 (fun i => Some (entry_at (jac_rows P) (jac_cols P) (coo_data (m_a P) ++ coo_data (b_j bf)) k i)).
  Proof.
    destruct bf_fixed as (q & Eq & F). pose proof (fx_j _ _ F) as Sj. pose proof (fx_wj _ _ F) as Wj. rewrite Eq in Sj, Wj. pose proof (fx_wj _ _ fixed_start) as Wj0.
    split.
    { rewrite app_length. unfold nnzj. rewrite <- (same_nnz _ _ Sj). unfold coo_nnz. destruct (fx_wa _ _ F) as [A1 A2]. destruct Wj as [B1 B2]. lia. }
    intros k c sl Hin Hdef w i Hw.
    rewrite (jac_entry P (b_j bf) k i (fx_wa _ _ F) Wj0 Wj (same_pattern _ _ Sj Wj0)).
    apply (fs_in m sp slots) in Hin as [Hin|(r & -> & Hin)].
    - rewrite (jac_row (m_a P) (b_j bf) (m_na P) k i (fx_ia _ _ F) (eq_sym (fx_lb _ _ F)) (row_lt st m sp cs slots Hp c k sl Hin)).
      exact (row_line st m sp k' Hh' Hm E obj cs slots Em Hp x Hx c k sl Hin Hdef w i Hw).
    - fold P. change (length (m_b P)) with (m_na P). rewrite (jac_fun (m_a P) (b_j bf) (m_na P) r i (fx_ia _ _ F) (eq_sym (fx_lb _ _ F))). exact (hv_j _ _ HV c r sl Hin Hdef w i Hw).
  Qed.
  Lemma told_h f y : length y = (na + length (cs_f cs))%nat ->
    map fst (lagrangian bf (Some f) (skipn na (pt y))) = lag_pos (m_bufs P) ->
    obj_value m vs0 <> None -> (forall k c sl, In (k, c, sl) fs -> fun_value c sl vs0 <> None) ->
    forall v i w j, In (v, i) v2i -> In (w, j) v2i -> (j <= i)%nat ->
    exists l,
      entry_at (map (fun ij => Z.of_nat (fst ij)) (lag_pos (m_bufs P))) (map (fun ij => Z.of_nat (snd ij)) (lag_pos (m_bufs P)))
               (map snd (lagrangian bf (Some f) (skipn na (pt y)))) i j = Some l /\
      second_partial_of (lagrangian_of m fs f y) vs0 v w l /\ second_partial_of (lagrangian_of m fs f y) vs0 w v l.
  Proof.
    intros Ly Epos Hdef Hall v i w j Hvi Hwj Hle.
    destruct (hv_h _ _ HV Hdef v i w j Hvi Hwj Hle) as (lo & Eo & So1 & So2).
    set (D := fun r => match nth_error (b_h bf) r with Some h => valx (coo_at h i j) | None => 0 end).
    set (De := fun e : nat * constraint X * option nodeX => if (fst (fst e) <? na)%nat then 0 else D (fst (fst e) - na)%nat).
    assert (HD : forall e, In e fs -> second_partial_of (fun_value (snd (fst e)) (snd e)) vs0 v w (De e) /\
                                      second_partial_of (fun_value (snd (fst e)) (snd e)) vs0 w v (De e)).
    { intros [[k c] sl] Hin. cbn [fst snd]. pose proof (Hall k c sl Hin) as Hd. unfold De. cbn [fst snd].
      apply (fs_in m sp slots) in Hin as [Hin|(r & -> & Hin)].
      - pose proof (row_lt st m sp cs slots Hp c k sl Hin) as Hk. fold P na in Hk. rewrite (proj2 (Nat.ltb_lt _ _) Hk).
        split; [exact (row_flat c k sl v i w j Hin Hd Hvi Hwj)|exact (row_flat c k sl w j v i Hin Hd Hwj Hvi)].
      - fold P na. rewrite (proj2 (Nat.ltb_ge _ _)) by lia. replace (na + r - na)%nat with r by lia.
        destruct (hv_hs _ _ HV c r sl Hin Hd) as (h & Eh & Hes). unfold D. rewrite Eh.
        destruct (Hes v i w j Hvi Hwj Hle) as (l & El & S1 & S2). rewrite El. cbn [valx]. auto. }
    assert (Tot : total (map (fun e => nth (fst (fst e)) y 0 * De e) fs) = total (map (fun r => nth (na + r) y 0 * D r) (seq 0 (length (cs_f cs))))).
    { transitivity (total (map (fun k => nth k y 0 * (if (k <? na)%nat then 0 else D (k - na)%nat)) (map (fun e => fst (fst e)) fs))); [rewrite map_map; reflexivity|].
      rewrite (total_perm _ _ (Permutation_map _ (fs_keys st m sp cs slots Hp))). fold P na. rewrite map_app, total_app, total_zero.
      - rewrite Rplus_0_l, map_map. apply total_ext. intros r _. rewrite (proj2 (Nat.ltb_ge _ _)) by lia. replace (na + r - na)%nat with r by lia. reflexivity.
      - intros k Hk. apply in_seq in Hk. rewrite (proj2 (Nat.ltb_lt _ _)) by lia. lra. }
    exists (f * lo + total (map (fun e => nth (fst (fst e)) y 0 * De e) fs)). split.
    - rewrite <- Epos, !map_map, entry_at_pos. unfold lagrangian. rewrite filter_app, map_app, xsum_app, scaled_at, Eo.
      assert (Esk : skipn na (pt y) = pt (skipn na y)) by (unfold pt; apply skipn_map). rewrite Esk.
      rewrite (scaled_all D i j (b_h bf) (skipn na y) 0).
      + cbn [x2]. f_equal. f_equal. rewrite Tot, (hv_nh _ _ HV). apply total_ext. intros r _. rewrite nth_skipn. reflexivity.
      + rewrite skipn_length, (hv_nh _ _ HV). lia.
      + intros r h Hr. cbn [Nat.add]. unfold D. rewrite Hr.
        assert (Hlt : (r < length (cs_f cs))%nat) by (rewrite <- (hv_nh _ _ HV); apply nth_error_Some; congruence).
        assert (Hi : In r (flat_map fun_no slots)) by (rewrite (pl_funs _ _ _ _ _ Hp); apply in_seq; lia).
        rewrite (flat_map_snd fun_no _ _ (cs_len st m sp cs slots Hp)) in Hi. apply in_flat_map in Hi as ([c sl] & Hc & Hr'). cbn [snd] in Hr'.
        destruct sl as [| |r' sl]; cbn in Hr'; try tauto. destruct Hr' as [->|[]].
        assert (Hf : In ((na + r)%nat, c, sl) fs) by (apply (fs_in m sp slots); right; exists r; auto).
        destruct (hv_hs _ _ HV c r sl Hc (Hall _ _ _ Hf)) as (h' & Eh & Hes). rewrite Hr in Eh. injection Eh as <-.
        destruct (Hes v i w j Hvi Hwj Hle) as (l & El & _). rewrite El. reflexivity.
    - assert (Ev : forall u k, In (u, k) v2i -> evaluate vs0 u = Some (nth k x 0)) by (intros u k Hu; exact (point_value st m sp k' Hh' Hm E x u k Hu)).
      assert (Eu : forall u k u' k' t, In (u, k) v2i -> In (u', k') v2i -> exists z, evaluate (upd vs0 u' t) u = Some z).
      { intros u k u' k2 t Hu Hu'. pose proof (ix_isvar st m sp k' Hh' Hm E u k Hu) as Iu. destruct (ptr_eq u u') eqn:Ep.
        - exists t. apply evaluate_upd_same; auto.
        - exists (nth k x 0). rewrite evaluate_upd_other by auto. exact (Ev u k Hu). }
      split; (apply spo_plus; [apply spo_scale; assumption|]).
      + apply (spo_sum (fun e => fun_value (snd (fst e)) (snd e)) (fun e => nth (fst (fst e)) y 0) De fs vs0 v w _ (Ev w j Hwj)).
        * intros t. exact (Eu v i w j t Hvi Hwj).
        * intros e He. apply (HD e He).
      + apply (spo_sum (fun e => fun_value (snd (fst e)) (snd e)) (fun e => nth (fst (fst e)) y 0) De fs vs0 w v _ (Ev v i Hvi)).
        * intros t. exact (Eu w j v i t Hwj Hvi).
        * intros e He. apply (HD e He).
  Qed.
End Told2.

Lemma model_facts `{HashOrd} (st : mstate X) m sp k' :
  hist no_self_quotient st -> In m (st_models st) -> std_problem m (st_k st) = Ok (sp, k') ->
  exists obj cs slots shift,
    model_std m (st_k st) = Ok ((obj, cs), k') /\ placed (st_k st) m cs sp slots /\
    (class_of (sp_prob sp) = ClNlp \/ class_of (sp_prob sp) = ClMinlp -> shift = Some 0) /\ (md_objective m = EmptyObj -> shift = Some 0) /\
    forall x, length x = m_nx (base_of (sp_prob sp)) ->
      exists bf, values_at (base_of (sp_prob sp)) (pt x) bf /\ holds_values m sp cs slots x shift bf.
Proof.
  intros Hh Hm E. pose proof (hist_any _ _ Hh) as Hh'.
  assert (Hcl : (class_of (sp_prob sp) = ClLp \/ class_of (sp_prob sp) = ClMilp) \/ class_of (sp_prob sp) = ClNlp \/ class_of (sp_prob sp) = ClMinlp)
    by (destruct (class_of (sp_prob sp)); auto).
  destruct (C27_objective st m sp k' Hh' Hm E) as (shift & S1 & S2 & HO).
  destruct Hcl as [Hcl|Hcl].
  - destruct (placed_all st m sp k' Hh' Hm E) as (obj & cs & slots & Em & Hp & _).
    exists obj, cs, slots, shift. do 4 (split; [assumption|]). intros x Hx.
    destruct (linear_no_funs st m sp k' obj cs slots Hh' Hm E Em Hp Hcl) as [Ecs Hns].
    destruct (C30_linear st m sp k' _ x Hh' Hm E Hcl (ev_start _) Hx) as (q & Eq & F1 & F2 & F3 & Hg).
    destruct (HO x Hx) as (phi & (q' & Eq' & Ephi) & Hphi & _). rewrite Eq in Eq'. injection Eq' as <-.
    exists (m_bufs q). split; [exists q; auto|]. constructor.
    + rewrite Ephi. exact Hphi.
    + intros Hd. apply (Hg Hd).
    + intros Hd. apply (Hg Hd).
    + rewrite F1, Ecs. reflexivity.
    + rewrite F2, Ecs. reflexivity.
    + intros c r sl Hin. destruct (Hns c r sl Hin).
    + intros c r sl Hin. destruct (Hns c r sl Hin).
    + intros c r sl Hin. destruct (Hns c r sl Hin).
  - destruct (C30_nonlinear st m sp k' Hh Hm E Hcl) as (obj & cs & slots & Em & Hp & HE).
    exists obj, cs, slots, shift. do 4 (split; [assumption|]). intros x Hx.
    destruct (HE _ x (ev_start _) Hx) as (q & Eq & [V1 V2 V3 V4 V5 V6 V7 V8]).
    assert (L : length (flat_map fun_no slots) = length (cs_f cs)) by (rewrite (pl_funs _ _ _ _ _ Hp); apply seq_length).
    exists (m_bufs q). split; [exists q; auto|]. constructor; auto; try congruence.
    rewrite V1, (S1 Hcl). destruct (obj_value m (at_point sp (pt x))); cbn; [f_equal; lra|reflexivity].
Qed.
Lemma ipopt_base {T} `{Num T} `{HashOrd} (st : mstate T) m sp k' q :
  hist any_op st -> In m (st_models st) -> std_problem m (st_k st) = Ok (sp, k') -> for_ipopt (sp_prob sp) = Some q -> nlp_base q = base_of (sp_prob sp).
Proof.
  intros Hh Hm E Hq.
  destruct (hist_run st m sp k' Hh Hm E) as (S & obj & S' & eo & ke & ko & ps & ar & jr & uc & lc & Hi & Mi & HW & Em & R & Esp & _).
  rewrite Esp in *. cbn [sp_prob] in *. unfold p_problem in *.
  destruct (p_linear obj (cat ps)), (no_int k' obj (cat ps)); try discriminate; injection Hq as <-; reflexivity.
Qed.
Lemma nth_forall2 {A B} (P : A -> B -> Prop) : forall l l', length l' = length l ->
  (forall i a b, nth_error l i = Some a -> nth_error l' i = Some b -> P a b) -> Forall2 P l l'.
Proof.
  induction l as [|a l IH]; intros [|b l'] L HP; try discriminate; constructor; [apply (HP 0%nat); reflexivity|].
  apply IH; [cbn in L; lia|]. intros i a' b' Ha Hb. exact (HP (Datatypes.S i) a' b' Ha Hb).
Qed.

(** ** C58 What Ipopt is told is the model
    Whatever sequence of requests it makes, the replies are the values and derivatives of
    the objective, of the constraint functions and of the Lagrangian of the model. *)
Theorem C58_values `{HashOrd} (st : mstate X) m sp k' q :
  hist no_self_quotient st -> In m (st_models st) -> std_problem m (st_k st) = Ok (sp, k') -> for_ipopt (sp_prob sp) = Some q ->
  small (m_nx (nlp_base q)) -> small (m_na (nlp_base q) + m_nf (nlp_base q)) ->
  exists obj cs slots shift,
    model_std m (st_k st) = Ok ((obj, cs), k') /\ placed (st_k st) m cs sp slots /\
    (class_of (sp_prob sp) = ClNlp -> shift = Some 0) /\ (md_objective m = EmptyObj -> shift = Some 0) /\
    forall p calls, evolves (nlp_base q) (nlp_base p) -> Forall (well_called (nlp_base q)) calls -> Forall real_call calls -> honours None calls ->
      exists p' rs, run_calls p calls = Ok (p', rs) /\
        Forall2 (model_reply m sp (nlp_base q) (functions m slots (m_na (nlp_base q))) shift) calls rs.
Proof.
  intros Hh Hm E Hq Sx Sm. pose proof (hist_any _ _ Hh) as Hh'. pose proof (C49_models st m sp k' q Hh' Hm E Hq Sx Sm) as Hs.
  pose proof (ipopt_base st m sp k' q Hh' Hm E Hq) as Eb. rewrite Eb in *.
  destruct (model_facts st m sp k' Hh Hm E) as (obj & cs & slots & shift & Em & Hp & S1 & S2 & HF).
  exists obj, cs, slots, shift. do 2 (split; [assumption|]). split; [intros Hc; apply S1; auto|]. split; [assumption|].
  intros p calls Hev Hw Hr Ho.
  destruct (C49_values _ Hs p calls Hev Hw Ho) as (p' & rs & Er & _ & L & RV).
  destruct (C50_new_lambda _ Hs p calls Hev Hw Ho) as (p2 & rs2 & Er2 & _ & RH). rewrite Er in Er2. injection Er2 as <- <-.
  exists p', rs. split; [exact Er|]. apply nth_forall2; [exact L|]. intros n c r Hc Hrn.
  specialize (RV n c r Hc Hrn). specialize (RH n c r Hc Hrn).
  rewrite Forall_forall in Hw, Hr. specialize (Hw c (nth_error_In _ _ Hc)). specialize (Hr c (nth_error_In _ _ Hc)).
  assert (Hpt : forall xs bf, (exists l, Some xs = Some l /\ length l = m_nx (base_of (sp_prob sp))) -> (exists x, xs = pt x) -> values_at (base_of (sp_prob sp)) xs bf ->
            exists x, xs = pt x /\ length x = m_nx (base_of (sp_prob sp)) /\ holds_values m sp cs slots x shift bf).
  { intros xs bf (l & El & Hl) (x & ->) V. injection El as <-. unfold pt in Hl. rewrite map_length in Hl. exists x. split; [reflexivity|]. split; [exact Hl|].
    destruct (HF x Hl) as (bf' & V' & HV). rewrite (values_fun _ _ _ _ V V'). exact HV. }
  assert (Hlg : forall xs bf, values_at (base_of (sp_prob sp)) xs bf -> length (b_gphi bf) = m_nx (base_of (sp_prob sp))).
  { intros xs bf V. destruct (shape_of _ _ _ V) as (q1 & He & <-). apply (fx_lg _ _ (fixed_ok _ _ Hs He)). }
  destruct Hr as [Hr1 Hr2].
  destruct c as [n' x f o|n' x f o|n' x f m' o|n' x f m' ne ir jc o|n' x f fac m' la nl ne ir jc o]; cbn [model_reply].
  - destruct x as [xs|]; [|exact Logic.I]. destruct RV as (bf & V & ->). cbn [well_called] in Hw.
    destruct (Hpt xs bf (proj1 (proj2 Hw)) (Hr1 xs eq_refl) V) as (x & -> & Hx & HV). eexists. split; [reflexivity|]. exact (hv_phi _ _ _ _ _ _ _ HV).
  - destruct x as [xs|]; [|exact Logic.I]. destruct RV as (bf & V & ->). cbn [well_called] in Hw.
    destruct (Hpt xs bf (proj1 (proj2 Hw)) (Hr1 xs eq_refl) V) as (x & -> & Hx & HV). eexists. split; [reflexivity|]. split; [exact (Hlg _ _ V)|].
    exact (hv_g _ _ _ _ _ _ _ HV).
  - destruct x as [xs|]; [|exact Logic.I]. destruct RV as (bf & V & ->). cbn [well_called] in Hw.
    destruct (Hpt xs bf (proj1 (proj2 (proj2 Hw))) (Hr1 xs eq_refl) V) as (x & -> & Hx & HV). eexists. split; [reflexivity|].
    apply (told_g st m sp cs slots Hp x Hx shift bf V HV Hs).
  - destruct x as [xs|]; [|exact Logic.I]. destruct o as [mem|]; [|exact Logic.I]. destruct RV as (bf & V & ->). cbn [well_called] in Hw.
    destruct Hw as (_ & _ & _ & [(Ho' & _)|(Hx' & _)]); [discriminate|].
    destruct (Hpt xs bf Hx' (Hr1 xs eq_refl) V) as (x & -> & Hx & HV). eexists. split; [reflexivity|].
    apply (told_j st m sp k' Hh' Hm E obj cs slots Em Hp x Hx shift bf V HV Hs).
  - destruct x as [xs|]; [|exact Logic.I]. destruct la as [la|]; [|exact Logic.I]. destruct o as [mem|]; [|exact Logic.I]. intros ->.
    assert (R : right_hessian (base_of (sp_prob sp)) (EvalH n' (Some xs) f fac m' (Some la) 1%Z ne ir jc (Some mem)) r) by (apply RH; left; reflexivity).
    cbn [right_hessian] in R. destruct R as (bf & V & Epos & ->). cbn [well_called] in Hw.
    destruct Hw as (_ & _ & _ & [(Ho' & _)|(Hx' & Hmem & (la' & El & Lla))]); [discriminate|]. injection El as <-.
    destruct (Hpt xs bf Hx' (Hr1 xs eq_refl) V) as (x & -> & Hx & HV). eexists. split; [reflexivity|]. split.
    + rewrite map_length, <- (map_length fst), Epos. unfold lag_pos, nnzh. rewrite app_length, map_length.
      assert (Le : forall a : coo X, coo_wf a -> length (entries a) = coo_nnz a) by (intros a [W1 W2]; unfold entries, coo_nnz; rewrite !combine_length; lia).
      rewrite Le by (apply (fx_whphi _ _ (fixed_ok _ _ Hs (ev_start _)))). f_equal.
      destruct (h_shape _ Hs _ (ev_start _)) as [Wh _]. clear -Wh Le. induction Wh as [|a l Wa Wl IH]; [reflexivity|]. cbn [flat_map map list_sum fold_right].
      rewrite app_length, map_length, (Le a Wa), IH. reflexivity.
    + intros Hd Hall fa y v i w j -> -> Hvi Hwj Hle.
      apply (told_h st m sp k' Hh' Hm E obj cs slots Em Hp x Hx shift bf HV fa y); auto.
      unfold pt in Lla. rewrite map_length in Lla. rewrite Lla. unfold m_na. f_equal.
      destruct (shape_of _ _ _ V) as (q1 & He & Eq1). rewrite <- (hv_nf _ _ _ _ _ _ _ HV), <- Eq1. symmetry. exact (fx_nf _ _ (fixed_ok _ _ Hs He)).
Qed.

(** ** Solving a model with Ipopt *)
(** The library with the parameters [ps] as a solver of problems. *)
Definition ipopt_solver {T} `{Num T} (lib : library T) (ps : params T) : problem T -> res (status * sol T + string) :=
  fun p => match ipopt_solve lib ps p with Ok r => Ok (snd r) | Panic e => Panic e end.
(** The solution made of the arrays that the library fills. *)
Definition read_back {T} `{Num T} (q : minlp T) (x la pi mu : nat -> T) : sol T :=
  mk_sol (tabulate (m_nx q) x) (tabulate (m_na q) (fun k => nneg (la k))) (tabulate (m_nf q) (fun k => nneg (la (m_na q + k)%nat)))
         (tabulate (m_nx q) mu) (tabulate (m_nx q) pi).
Definition code_status (code : Z) (s : status) : Prop :=
  (s = Solved <-> code = 0%Z \/ code = 1%Z) /\ (s = Infeasible <-> code = 2%Z) /\ (s = Error <-> ~ In code [0; 1; 2]%Z).
(** The library was asked to solve the problem [q] with these options from [x0], made
    the calls [cs] and returned. *)
Definition ipopt_run {T} `{Num T} (lib : library T) (ps : params T) (q p' : nlp T) (x0 : list T) (cs : list (cb T)) (code : Z) (x la pi mu : nat -> T) : Prop :=
  exists lvl sb,
    get_param ps "print_level" = Some (IntParam lvl) /\ get_param ps "sb" = Some (StrParam sb) /\ ~ contains_nul sb /\
    lib_create lib (create_of q) = true /\ lib_int lib "print_level" lvl = true /\ lib_str lib "sb" sb = true /\
    plays (lib_solve lib (create_of q) lvl sb x0) q p' cs code x la pi mu.

Section Ran.
  Context {T : Type} `{Num T}.
  Lemma run_plays s : forall (p p' : nlp T) a, run_play s p = Ok (p', a) -> exists cs code x la pi mu, plays s p p' cs code x la pi mu.
  Proof.
    induction s as [code x la pi mu|c k IH]; intros p p' a Er.
    - injection Er as <- _. do 6 eexists. constructor.
    - cbn [run_play] in Er. destruct (callback p c) as [[p1 r]|] eqn:Ec; [|discriminate]. cbn [rbind fst snd] in Er.
      destruct (IH r p1 p' a Er) as (cs & code & x & la & pi & mu & Hp). do 6 eexists. econstructor; eassumption.
  Qed.
  Lemma to_i32_inv n z : to_i32 n = Ok z -> small n.
  Proof. unfold to_i32, small. destruct (Z.of_nat n <=? 2147483647)%Z eqn:El; [|discriminate]. intros _. apply Z.leb_le. exact El. Qed.
  (** Sizes: the problem of a model is ready unless a size exceeds an i32. *)
  Lemma model_ready `{HashOrd} (st : mstate T) m sp k' q :
    hist any_op st -> In m (st_models st) -> std_problem m (st_k st) = Ok (sp, k') -> for_ipopt (sp_prob sp) = Some q ->
    small (m_nx (nlp_base q)) -> small (m_na (nlp_base q) + m_nf (nlp_base q)) -> small (nnzj (nlp_base q)) -> small (nnzh (nlp_base q)) -> ready (nlp_base q) q.
  Proof. intros Hh Hm E Hq S1 S2 S3 S4. constructor; auto; [exact (C49_models st m sp k' q Hh Hm E Hq S1 S2)|constructor]. Qed.
  Lemma ipopt_small `{HashOrd} (st : mstate T) m sp k' q lib ps r :
    hist any_op st -> In m (st_models st) -> std_problem m (st_k st) = Ok (sp, k') -> for_ipopt (sp_prob sp) = Some q ->
    ipopt_solve_nlp lib ps q = Ok r ->
    small (m_nx (nlp_base q)) /\ small (m_na (nlp_base q) + m_nf (nlp_base q)) /\ small (nnzj (nlp_base q)) /\ small (nnzh (nlp_base q)).
  Proof.
    intros Hh Hm E Hq Er. unfold ipopt_solve_nlp in Er.
    destruct (to_i32 (m_nx (nlp_base q))) as [z1|] eqn:E1; [|discriminate]. cbn [rbind] in Er.
    destruct (to_i32 (m_na (nlp_base q) + m_nf (nlp_base q))) as [z2|] eqn:E2; [|discriminate]. cbn [rbind] in Er.
    destruct (to_i32 (coo_nnz (m_a (nlp_base q)) + coo_nnz (b_j (m_bufs (nlp_base q))))) as [z3|] eqn:E3; [|discriminate]. cbn [rbind] in Er.
    destruct (to_i32 (coo_nnz (b_hphi (m_bufs (nlp_base q))) + coo_nnz (m_hcomb (nlp_base q)))) as [z4|] eqn:E4; [|discriminate]. clear Er.
    apply to_i32_inv in E1, E2, E3, E4. do 3 (split; [assumption|]).
    pose proof (C49_models st m sp k' q Hh Hm E Hq E1 E2) as Hs. pose proof (fixed_ok _ _ Hs (ev_start _)) as F.
    unfold nnzh. rewrite <- (fx_nhc _ _ F). exact E4.
  Qed.
  Lemma ipopt_ran `{HashOrd} (st : mstate T) m sp k' q lib ps p1 leak stat s :
    hist any_op st -> In m (st_models st) -> std_problem m (st_k st) = Ok (sp, k') -> for_ipopt (sp_prob sp) = Some q ->
    ipopt_solve_nlp lib ps q = Ok (p1, leak, inl (stat, s)) ->
    exists x0 cs code x la pi mu, m_x0 (nlp_base q) = Some x0 /\ ipopt_run lib ps q p1 x0 cs code x la pi mu /\
      code_status code stat /\ s = read_back (nlp_base q) x la pi mu.
  Proof.
    intros Hh Hm E Hq Er.
    destruct (ipopt_small st m sp k' q lib ps _ Hh Hm E Hq Er) as (S1 & S2 & S3 & S4).
    pose proof (model_ready st m sp k' q Hh Hm E Hq S1 S2 S3 S4) as Hr.
    assert (Hx0 : exists x0, m_x0 (nlp_base q) = Some x0 /\ length x0 = m_nx (nlp_base q)).
    { destruct (hist_run st m sp k' Hh Hm E) as (S & obj & S' & eo & ke & ko & ps' & ar & jr & uc & lc & Hi & Mi & HW & Em & R & Esp & _).
      destruct (C29_well_formed st m _ k' Hh Hm Em) as (sp' & E' & WF). rewrite E in E'. injection E' as <-.
      destruct (wf_x0 _ WF) as (x0 & Ex & Lx). exists x0. rewrite (ipopt_base st m sp k' q Hh Hm E Hq). split; [exact Ex|].
      rewrite Lx. destruct (wf_a _ WF) as (_ & Hc & _). symmetry. exact Hc. }
    destruct Hx0 as (x0 & Ex0 & Lx0).
    pose proof Er as Er0. rewrite (head_ok _ _ Hr) in Er.
    destruct (lib_create lib (create_of q)) eqn:L1; [|discriminate].
    destruct (get_param ps "print_level") as [[lvl| |]|] eqn:G1; try discriminate.
    destruct (lib_int lib "print_level" lvl) eqn:L2; [|discriminate].
    destruct (get_param ps "sb") as [[| |sb]|] eqn:G2; try discriminate.
    destruct (has_nul sb) eqn:Hn; [discriminate|]. cbn [rbind] in Er. apply nul_false in Hn.
    destruct (lib_str lib "sb" sb) eqn:L3; [|discriminate]. rewrite Ex0 in Er.
    unfold copy_from_slice, rassert in Er. rewrite repeat_length, Lx0, Nat.eqb_refl in Er. cbn [rbind] in Er.
    destruct (run_play (lib_solve lib (create_of q) lvl sb x0) q) as [[p2 a]|] eqn:Ep; [|discriminate]. cbn [rbind fst snd] in Er. clear Er.
    destruct (run_plays _ _ _ _ Ep) as (cs & code & x & la & pi & mu & Hp).
    assert (Hst : starts q x0) by (unfold starts; rewrite Ex0; auto).
    destruct (C51_solution (nlp_base q) q lib ps lvl sb x0 p2 cs code x la pi mu Hr Hst G1 G2 Hn L1 L2 L3 Hp) as (stat' & Es & Hc).
    rewrite Er0 in Es. injection Es as -> _ -> ->.
    exists x0, cs, code, x, la, pi, mu. split; [exact Ex0|]. split; [|split; [exact Hc|reflexivity]].
    exists lvl, sb. auto 10.
  Qed.

  (** ** C58 What a model solved with Ipopt records
      The library was run on the standard problem from the initial values of the model; the value
      recorded for a variable is the entry of the returned array with the variable's index. *)
  Theorem C58_solution `{HashOrd} lib calls (st : mstate T) m m' k' :
    hist any_op st -> In m (st_models st) -> neqb (@nm1 T _) n0 = false ->
    solve (ipopt_solver lib (after ipopt_new calls)) m (st_k st) = (m', Returned (inl tt), k') ->
    exists sp q p' x0 cs code x la pi mu stat,
      std_problem m (st_k st) = Ok (sp, k') /\ for_ipopt (sp_prob sp) = Some q /\ nlp_base q = base_of (sp_prob sp) /\
      ipopt_run lib (after ipopt_new calls) q p' x0 cs code x la pi mu /\
      length x0 = m_nx (nlp_base q) /\
      (forall v i, In (v, i) (sp_var2index sp) -> nth_error x0 i = Some (match hget ptr_eq v (md_init m) with Some x => x | None => n0 end)) /\
      md_status m' = Some stat /\ code_status code stat /\
      (forall v, model_var m v -> exists i, In (v, i) (sp_var2index sp)) /\
      forall v i, In (v, i) (sp_var2index sp) -> hget ptr_eq v (md_primals m') = Some (x i).
  Proof.
    intros Hh Hm Hnm E. destruct (C33_primals st _ m m' k' Hh Hm E) as (sp & stat & s & Esp & Es & Hst & _ & _ & Hv).
    assert (Hq : exists q p1 leak, for_ipopt (sp_prob sp) = Some q /\ ipopt_solve_nlp lib (after ipopt_new calls) q = Ok (p1, leak, inl (stat, s))).
    { unfold ipopt_solver, ipopt_solve in Es. destruct (sp_prob sp) as [q|q|q|q]; cbn [for_ipopt] in *; try discriminate;
        (destruct (ipopt_solve_nlp lib (after ipopt_new calls) _) as [[[p1 leak] r]|] eqn:Ei; [|discriminate]); cbn [rbind fst snd] in Es; injection Es as ->; do 3 eexists; (split; [reflexivity|exact Ei]). }
    destruct Hq as (q & p1 & leak & Hq & Ei).
    destruct (ipopt_ran st m sp k' q lib _ p1 leak stat s Hh Hm Esp Hq Ei) as (x0 & cs & code & x & la & pi & mu & Ex0 & Hrun & Hc & ->).
    pose proof (ipopt_base st m sp k' q Hh Hm Esp Hq) as Eb.
    exists sp, q, p1, x0, cs, code, x, la, pi, mu, stat. do 4 (split; [assumption|]).
    destruct (C32_x0 st m sp k' Hh Hm Esp) as (x0' & Ex0' & Lx0 & Hx0). rewrite Eb, Ex0' in Ex0. injection Ex0 as ->.
    destruct (C24_bijection st m sp k' Hh Hm Esp Hnm) as (Hidx & _ & Hin & _).
    assert (Ln : length (sp_var2index sp) = m_nx (nlp_base q)) by (rewrite Eb, <- (map_length snd), Hidx; apply seq_length).
    split; [congruence|]. do 3 (split; [assumption|]).
    split; [intros v Hmv; apply Hin in Hmv; apply in_map_iff in Hmv as ([w i] & <- & Hw); eauto|].
    intros v i Hi. destruct (Hv v i Hi) as (y & Hy & _ & Hg). rewrite Hg. cbn [read_back s_x] in Hy. rewrite <- Hy. unfold tabulate.
    assert (Hlt : (i < m_nx (nlp_base q))%nat).
    { assert (Hs : In i (map snd (sp_var2index sp))) by (apply in_map_iff; exists (v, i); auto). rewrite Hidx in Hs. apply in_seq in Hs. rewrite Eb. lia. }
    rewrite nth_error_map, nth_error_nth' with (d := 0%nat) by (rewrite seq_length; exact Hlt). rewrite seq_nth by exact Hlt. reflexivity.
  Qed.

  Lemma plays_calls s (p p' : nlp T) cs code x la pi mu : plays s p p' cs code x la pi mu -> exists rs, run_calls p cs = Ok (p', rs).
  Proof.
    intros Hp. induction Hp as [|c k p r p1 p' cs code x la pi mu Ec Hp (rs & IH)]; [exists []; reflexivity|].
    exists (r :: rs). cbn [run_calls]. rewrite Ec. cbn [rbind fst snd]. rewrite IH. reflexivity.
  Qed.
  (** ** C58 When it returns
      If the model has a standard problem of a supported class whose sizes fit, the library
      accepts the options and keeps Ipopt's contract, then [solve] succeeds, and all the requests were
      made as C58_values requires. *)
  Theorem C58_returns `{HashOrd} lib calls (st : mstate T) m sp k' q lvl sb x0 :
    hist any_op st -> In m (st_models st) -> std_problem m (st_k st) = Ok (sp, k') -> for_ipopt (sp_prob sp) = Some q ->
    small (m_nx (nlp_base q)) -> small (m_na (nlp_base q) + m_nf (nlp_base q)) -> small (nnzj (nlp_base q)) -> small (nnzh (nlp_base q)) ->
    get_param (after ipopt_new calls) "print_level" = Some (IntParam lvl) -> get_param (after ipopt_new calls) "sb" = Some (StrParam sb) -> ~ contains_nul sb ->
    lib_create lib (create_of q) = true -> lib_int lib "print_level" lvl = true -> lib_str lib "sb" sb = true ->
    m_x0 (nlp_base q) = Some x0 -> lawful (nlp_base q) None (lib_solve lib (create_of q) lvl sb x0) ->
    exists m' p' cs rs code x la pi mu,
      solve (ipopt_solver lib (after ipopt_new calls)) m (st_k st) = (m', Returned (inl tt), k') /\
      plays (lib_solve lib (create_of q) lvl sb x0) q p' cs code x la pi mu /\
      Forall (well_called (nlp_base q)) cs /\ honours None cs /\ run_calls q cs = Ok (p', rs).
  Proof.
    intros Hh Hm E Hq S1 S2 S3 S4 G1 G2 Hn L1 L2 L3 Ex0 Hl.
    pose proof (model_ready st m sp k' q Hh Hm E Hq S1 S2 S3 S4) as Hr. pose proof (ipopt_base st m sp k' q Hh Hm E Hq) as Eb.
    destruct (C32_x0 st m sp k' Hh Hm E) as (x0' & Ex0' & Lx0 & _). rewrite <- Eb, Ex0 in Ex0'. injection Ex0' as <-.
    assert (Ln : length (sp_var2index sp) = m_nx (nlp_base q)).
    { destruct (hist_run st m sp k' Hh Hm E) as (S & obj & S' & eo & ke & ko & ps' & ar & jr & uc & lc & Hi & Mi & HW & Em & R & Esp & _).
      destruct (C29_well_formed st m _ k' Hh Hm Em) as (sp' & E' & WF). rewrite E in E'. injection E' as <-.
      rewrite Eb. destruct (wf_a _ WF) as (_ & Hc & _). symmetry. exact Hc. }
    assert (Hst : starts q x0) by (unfold starts; rewrite Ex0; split; [reflexivity|congruence]).
    destruct (C51_returns (nlp_base q) q lib (after ipopt_new calls) lvl sb x0 Hr Hst G1 G2 Hn L1 L2 L3 Hl)
      as (p' & cs & code & x & la & pi & mu & stat & s & Hp & Hw & Ho & _ & Es).
    destruct (C51_solution (nlp_base q) q lib _ lvl sb x0 p' cs code x la pi mu Hr Hst G1 G2 Hn L1 L2 L3 Hp) as (stat' & Es' & _).
    rewrite Es in Es'. injection Es' as <- ->.
    destruct (plays_calls _ _ _ _ _ _ _ _ _ Hp) as [rs Hrs].
    match type of Es with _ = Ok (_, _, inl (_, ?s)) => set (s0 := s) in * end.
    assert (Ei : ipopt_solver lib (after ipopt_new calls) (sp_prob sp) = Ok (inl (stat, s0))).
    { unfold ipopt_solver, ipopt_solve. destruct (sp_prob sp) as [q'|q'|q'|q']; cbn [for_ipopt] in Hq; try discriminate; injection Hq as <-; rewrite Es; reflexivity. }
    destruct (C33_returns st _ m sp k' stat s0 Hh Hm E Ei) as [m' Em'].
    1-5: rewrite <- Eb; subst s0; cbn [s_x s_lam s_nu s_mu s_pi]; unfold tabulate; rewrite map_length, seq_length; apply Nat.le_refl.
    exists m', p', cs, rs, code, x, la, pi, mu. auto 10.
  Qed.
End Ran.

(** ** C58 The multipliers it records *)
Theorem C58_duals `{HashOrd} lib calls (st : mstate X) m m' k' :
  hist any_op st -> In m (st_models st) -> NoDup (map cid (md_constraints m)) ->
  solve (ipopt_solver lib (after ipopt_new calls)) m (st_k st) = (m', Returned (inl tt), k') ->
  exists sp obj cs slots q p' x0 reqs code x la pi mu,
    std_problem m (st_k st) = Ok (sp, k') /\ model_std m (st_k st) = Ok ((obj, cs), k') /\ placed (st_k st) m cs sp slots /\
    for_ipopt (sp_prob sp) = Some q /\ ipopt_run lib (after ipopt_new calls) q p' x0 reqs code x la pi mu /\
    Forall2 (fun c sl => dual_of sp (read_back (nlp_base q) x la pi mu) c sl (hget constr_eqb c (md_duals m'))) (md_constraints m) slots /\
    (forall c, In c (map fst (md_duals m')) -> In c (md_constraints m)).
Proof.
  intros Hh Hm Hnd E.
  destruct (C34_duals st _ m m' k' Hh Hm E Hnd) as (sp & stat & s & obj & cs & slots & Esp & Es & Em & Hp & Hd & Hk).
  assert (Hq : exists q p1 leak, for_ipopt (sp_prob sp) = Some q /\ ipopt_solve_nlp lib (after ipopt_new calls) q = Ok (p1, leak, inl (stat, s))).
  { unfold ipopt_solver, ipopt_solve in Es. destruct (sp_prob sp) as [q|q|q|q]; cbn [for_ipopt] in *; try discriminate;
      (destruct (ipopt_solve_nlp lib (after ipopt_new calls) _) as [[[p1 leak] r]|] eqn:Ei; [|discriminate]); cbn [rbind fst snd] in Es; injection Es as ->; do 3 eexists; (split; [reflexivity|exact Ei]). }
  destruct Hq as (q & p1 & leak & Hq & Ei).
  destruct (ipopt_ran st m sp k' q lib _ p1 leak stat s Hh Hm Esp Hq Ei) as (x0 & reqs & code & x & la & pi & mu & Ex0 & Hrun & Hc & ->).
  exists sp, obj, cs, slots, q, p1, x0, reqs, code, x, la, pi, mu. repeat (split; [assumption|]). assumption.
Qed.

(** ** C58 Sizes
    A problem has at most one column per variable of the model and per constraint, and
    at most one row or function per constraint. *)
Theorem C58_sizes `{HashOrd} (st : mstate X) m sp k' vars :
  hist any_op st -> In m (st_models st) -> std_problem m (st_k st) = Ok (sp, k') ->
  (forall v, model_var m v -> In v vars) ->
  (m_nx (base_of (sp_prob sp)) <= length vars + length (md_constraints m))%nat /\
  (m_na (base_of (sp_prob sp)) + m_nf (base_of (sp_prob sp)) <= length (md_constraints m))%nat.
Proof.
  intros Hh Hm E Hv.
  destruct (C24_slacks st m sp k' Hh Hm E) as (obj & cs & slots & Em & Hp & Hin).
  destruct (C24_bijection st m sp k' Hh Hm E x_nm1) as (Hidx & Hinj & _).
  assert (Ls : length slots = length (md_constraints m)) by (pose proof (pl_slots _ _ _ _ _ Hp) as HF; clear -HF; induction HF; cbn; congruence).
  assert (Hone : (length (flat_map slack_of slots) <= length slots)%nat).
  { clear. induction slots as [|s l IH]; [reflexivity|]. cbn [flat_map length]. rewrite app_length.
    assert (length (slack_of s) <= 1)%nat by (destruct s as [? ?|? [?|]|? [?|]]; cbn; lia). lia. }
  split.
  - assert (L : length (sp_var2index sp) = m_nx (base_of (sp_prob sp))) by (rewrite <- (map_length snd), Hidx; apply seq_length).
    rewrite <- L, <- (map_length fst).
    assert (Hnd : NoDup (map fst (sp_var2index sp))).
    { assert (Hs : NoDup (map snd (sp_var2index sp))) by (rewrite Hidx; apply seq_NoDup).
      assert (Hf : forall v i j, In (v, i) (sp_var2index sp) -> In (v, j) (sp_var2index sp) -> i = j).
      { intros v i j Hi Hj. exact (proj2 (Hinj v v i j Hi Hj eq_refl)). }
      revert Hs Hf. clear. generalize (sp_var2index sp) as l. induction l as [|[v i] l IH]; intros Hs Hf; constructor.
      - cbn [map fst snd] in *. inversion Hs as [|? ? Hn _]; subst. intros Hi. apply in_map_iff in Hi as ([w j] & <- & Hw).
        apply Hn. cbn [fst] in Hf. rewrite (Hf w i j (or_introl eq_refl) (or_intror Hw)). apply in_map_iff. exists (w, j). auto.
      - cbn [map fst snd] in *. inversion Hs; subst. apply IH; [assumption|]. intros u a b Ha Hb. apply (Hf u); right; assumption. }
    apply Nat.le_trans with (length (vars ++ flat_map slack_of slots)).
    + apply NoDup_incl_length; [exact Hnd|]. intros v Hi. apply in_or_app. apply Hin in Hi as [Hi|Hi]; auto.
    + rewrite app_length. lia.
  - assert (Hr : (length (flat_map row_no slots) + length (flat_map fun_no slots) <= length slots)%nat).
    { clear. induction slots as [|s l IH]; [reflexivity|]. cbn [flat_map length]. rewrite !app_length.
      assert (length (row_no s) + length (fun_no s) <= 1)%nat by (destruct s; cbn; lia). lia. }
    rewrite (pl_rows _ _ _ _ _ Hp), (pl_funs _ _ _ _ _ Hp), !seq_length in Hr.
    enough (m_nf (base_of (sp_prob sp)) <= length (cs_f cs))%nat by (unfold m_na; lia).
    destruct (hist_run st m sp k' Hh Hm E) as (S & obj' & S' & eo & ke & ko & ps & ar & jr & uc & lc & Hi & Mi & HW & Em' & R & -> & _).
    rewrite Em in Em'. inversion Em'; subst obj' cs; clear Em'. cbn [sp_prob].
    destruct (base_bufs k' (md_init m) obj (cat ps)) as (Eb & _). unfold m_nf. rewrite Eb.
    destruct (p_linear obj (cat ps)); cbn [lin_bufs nl_bufs b_f]; [apply Nat.le_0_l|rewrite repeat_length; reflexivity].
Qed.

(** The hypotheses of C58_values are met by the model
      minimise x*y   subject to   x >= 1, x + y == 3, x*y <= 0
    for requests of all five kinds at any point and with any multipliers. *)
Example C58_example_real : exists sp k' q, @hist X _ no_self_quotient est /\ In em (st_models est) /\
  @std_problem X _ ord_id em (st_k est) = Ok (sp, k') /\ for_ipopt (sp_prob sp) = Some q /\
  small (m_nx (nlp_base q)) /\ small (m_na (nlp_base q) + m_nf (nlp_base q)) /\
  let n := Z.of_nat (m_nx (nlp_base q)) in
  let k := (m_na (nlp_base q) + m_nf (nlp_base q))%nat in
  forall x y, length x = m_nx (nlp_base q) -> length y = k ->
    let calls := [EvalJacG n None 0 (Z.of_nat k) (Z.of_nat (nnzj (nlp_base q))) (Some (repeat 0%Z (nnzj (nlp_base q)))) (Some (repeat 0%Z (nnzj (nlp_base q)))) None;
                  EvalF n (Some (pt x)) 1 (Some [Some 0]); EvalGradF n (Some (pt x)) 0 (Some (pt x));
                  EvalG n (Some (pt x)) 0 (Z.of_nat k) (Some (pt y));
                  EvalJacG n (Some (pt x)) 0 (Z.of_nat k) (Z.of_nat (nnzj (nlp_base q))) None None (Some (repeat None (nnzj (nlp_base q))));
                  EvalH n (Some (pt x)) 0 (Some 1) (Z.of_nat k) (Some (pt y)) 1 (Z.of_nat (nnzh (nlp_base q))) None None (Some (repeat None (nnzh (nlp_base q))))] in
    Forall (well_called (nlp_base q)) calls /\ Forall real_call calls /\ honours None calls.
Proof.
  destruct C30_example as (sp & k' & x & Hh & Hm & E & Hcl & _).
  destruct (@C28_class X _ ord_id est em sp k' ex_hist Hm E x_nm1) as (_ & _ & _ & Hmi).
  assert (Hvars : forall v, model_var em v -> In v [cx; cy]).
  { assert (Hx : forall v : nodeX, sub v cx -> v = cx) by (intros v Hs; inversion Hs as [|? ? ? Hin]; [reflexivity|destruct Hin]).
    assert (Hy : forall v : nodeX, sub v cy -> v = cy) by (intros v Hs; inversion Hs as [|? ? ? Hin]; [reflexivity|destruct Hin]).
    assert (Hc : forall (v : nodeX) i w, is_var v = true -> ~ sub v (NConst i w)) by (intros v i w Hv Hs; inversion Hs as [? E1|? ? ? Hin]; [subst; discriminate|destruct Hin]).
    assert (H2 : forall v n : nodeX, (n = cm \/ n = cs_) -> is_var v = true -> sub v n -> In v [cx; cy]).
    { intros v n Hn Hv Hs. inversion Hs as [? E1|? c ? Hin Hs']; subst; [destruct Hn as [->| ->]; discriminate|].
      destruct Hn as [->| ->]; destruct Hin as [<-|[<-|[]]]; (apply Hx in Hs' || apply Hy in Hs'); cbn; auto. }
    intros v [[Hv Ho]|(c & [<-|[<-|[<-|[]]]] & [[Hv Ho]|[Hv Ho]])]; cbn [md_objective em clhs crhs ec1 ec2 ec3] in Ho;
      solve [apply (H2 v cm); auto | apply (H2 v cs_); auto | destruct (Hc _ _ _ Hv Ho) | apply Hx in Ho; cbn; auto]. }
  assert (Hni : ~ some_integer em) by (intros (v & Hv & Hi); apply Hvars in Hv as [<-|[<-|[]]]; discriminate).
  assert (Hq : exists q, for_ipopt (sp_prob sp) = Some q).
  { destruct Hcl as [Hcl|Hcl]; [|apply Hmi in Hcl; tauto]. destruct (sp_prob sp); try discriminate. eexists; reflexivity. }
  destruct Hq as (q & Hq). pose proof (@ipopt_base X _ ord_id est em sp k' q ex_hist Hm E Hq) as Eb.
  destruct (@C58_sizes ord_id est em sp k' [cx; cy] ex_hist Hm E Hvars) as [Z1 Z2]. rewrite <- Eb in Z1, Z2.
  cbn [length md_constraints em] in Z1, Z2.
  exists sp, k', q. do 4 (split; [assumption|]). split; [unfold small; lia|]. split; [unfold small; lia|].
  cbn zeta. clear -q. intros x y Hx Hy.
  assert (Px : point_ok (nlp_base q) (Some (pt x))) by (exists (pt x); split; [reflexivity|unfold pt; rewrite map_length; exact Hx]).
  assert (Mx : memory (m_nx (nlp_base q)) (Some (pt x))) by (exists (pt x); split; [reflexivity|unfold pt; rewrite map_length; exact Hx]).
  assert (My : memory (m_na (nlp_base q) + m_nf (nlp_base q)) (Some (pt y))) by (exists (pt y); split; [reflexivity|unfold pt; rewrite map_length; exact Hy]).
  assert (Mr : forall A (a : A) n, memory n (Some (repeat a n))) by (intros A a n; exists (repeat a n); split; [reflexivity|apply repeat_length]).
  split; [|split].
  - repeat (apply Forall_cons; [cbn [well_called]|]); [..|constructor].
    + do 3 (split; [reflexivity|]). left. auto.
    + split; [reflexivity|]. split; [exact Px|]. eexists; split; reflexivity.
    + auto.
    + auto.
    + do 3 (split; [reflexivity|]). right. auto.
    + do 3 (split; [reflexivity|]). right. auto.
  - repeat (apply Forall_cons; [split; [intros xs Exs; cbn [point_of] in Exs; try discriminate; try (injection Exs as <-; exists x; reflexivity)|]|]); [..|constructor]; try exact I.
    split; [exists 1; reflexivity|]. intros l El. injection El as <-. exists y. reflexivity.
  - cbn [honours point_of flag_of]. auto 20.
Qed.

#[local] Existing Instance NumF0.
(** *** The Jacobian of a model with a linear and a nonlinear equality
      minimise x*x   subject to   x + y == 1, x*y == 2
    is reported at the wrong positions: the entries of the nonlinear function, row 1, are announced for row 0. *)
Definition c58_prog : list (call F) :=
  [CExpr (OVar "x" VarContinuous); CExpr (OVar "y" VarContinuous); CExpr (OMulNN 0 0); CExpr (OAddNN 0 1); CExpr (OMulNN 0 1);
   CCmpNS 3 Equal (flit 1) ""; CCmpNS 4 Equal (flit 2) ""; CNewModel; CSetObj 0 Minimise 2; CAddConstrs 0 [0; 1]%nat].
Theorem C58_jacobian_refuted : exists (st : mstate F) m sp k' q c r,
  @hist F NumF0 any_op st /\ In m (st_models st) /\ @std_problem F NumF0 ord_id m (st_k st) = Ok (sp, k') /\ for_ipopt (sp_prob sp) = Some q /\
  well_called (nlp_base q) c /\ honours None [c] /\ callback q c = Ok (q, r) /\ rp_ok r = true /\
  rp_irow r = Some [0; 0; 0; 0]%Z /\ jac_rows (nlp_base q) = [0; 0; 1; 1]%Z /\ rp_jcol r = Some (jac_cols (nlp_base q)).
Proof.
  set (c := EvalJacG 2 None 0 2 4 (Some [7; 7; 7; 7]%Z) (Some [7; 7; 7; 7]%Z) None : cb F).
  assert (C : match @mrun F NumF0 ord_id c58_prog mstart with
              | Some st => match st_models st with
                | [m] => match @std_problem F NumF0 ord_id m (st_k st) with
                  | Ok (sp, _) => match sp_prob sp with
                    | PNlp q => match callback q c with
                       | Ok (_, r) => (rp_ok r, rp_irow r, rp_jcol r, jac_rows (nlp_base q), jac_cols (nlp_base q), m_nx (nlp_base q), m_na (nlp_base q), m_nf (nlp_base q), nnzj (nlp_base q))
                                      = (true, Some [0; 0; 0; 0]%Z, Some [0; 1; 0; 1]%Z, [0; 0; 1; 1]%Z, [0; 1; 0; 1]%Z, 2, 1, 1, 4)%nat
                       | _ => False end
                    | _ => False end
                  | _ => False end
                | _ => False end
              | None => False end) by (vm_compute; reflexivity).
  destruct (@mrun F NumF0 ord_id c58_prog mstart) as [st|] eqn:E; [|destruct C].
  destruct (st_models st) as [|m [|]] eqn:Em; try (destruct C; fail).
  destruct (@std_problem F NumF0 ord_id m (st_k st)) as [[sp k']|] eqn:Es; [|destruct C].
  destruct (sp_prob sp) as [| | |q] eqn:Ep; try (destruct C; fail).
  destruct (callback q c) as [[q' r]|] eqn:Er; [|destruct C].
  assert (Eq : q' = q).
  { unfold c in Er. cbn [callback] in Er. unfold eval_jac_g_cb in Er.
    destruct (is_count _ _ && is_count _ _ && is_count _ _); [|injection Er as <- <-; reflexivity].
    destruct (store_pattern _ _) as [st1|]; [|discriminate]. cbn [rbind] in Er.
    destruct (store_pattern st1 _) as [st2|]; [|discriminate]. cbn [rbind] in Er. injection Er as <- <-; reflexivity. }
  subst q'. injection C as C1 C2 C3 C4 C5 C6 C7 C8 C9.
  exists st, m, sp, k', q, c, r. rewrite Em, Ep.
  split; [eapply (@mrun_hist F NumF0 ord_id c58_prog mstart); [constructor|exact E]|].
  split; [left; reflexivity|]. split; [exact Es|]. split; [reflexivity|]. split.
  { unfold c. cbn [well_called]. rewrite C6, C7, C8, C9. do 3 (split; [reflexivity|]). left. split; [reflexivity|]. split; eexists; split; reflexivity. }
  split; [exact I|]. split; [exact Er|]. rewrite C5. repeat (split; [assumption|]). assumption.
Qed.

(** The same model solved by a library that asks for the objective and the constraints. *)
Definition c58_lib : library F :=
  mk_library (fun _ => true) (fun _ _ => true) (fun _ _ => true)
    (fun _ _ _ x0 => Ask (EvalF 2 (Some [flit 2; flit 3]) 1 (Some [flit 99])) (fun r1 =>
                     Ask (EvalG 2 (Some [flit 2; flit 3]) 0 2 (Some [flit 99; flit 99])) (fun r2 =>
       Finish (match rp_out r1, rp_out r2 with Some [f], Some [g0; g1] => 0 | _, _ => 5 end)%Z
              (fun i => nth i (match rp_out r2 with Some l => l | None => [] end) n0)
              (fun i => match i with 0%nat => flit 6 | _ => flit 7 end) (fun _ => n0) (fun _ => n0)))).
Example C58_example :
  match @mrun F NumF0 ord_id c58_prog mstart with
  | Some st => match st_models st with
    | [m] => let '(m', o, _) := @solve F NumF0 ord_id (ipopt_solver c58_lib (after ipopt_new [])) m (st_k st) in
             o = Returned (inl tt) /\ md_status m' = Some Solved /\
             map (fun p => (name (fst p), snd p)) (md_primals m') = [("x"%string, flit 4); ("y"%string, flit 4)] /\
             map snd (md_duals m') = [flit (-6); flit (-7)]
    | _ => False end
  | None => False end.
Proof. vm_compute. repeat split. Qed.
