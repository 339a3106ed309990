(** Property C80: what Ipopt is told about a model, number for number, and up to rounding. *)
From Verif Require Import Base Num Node NodeInd NodeDiff NodeStd Constraint Matrix Problem ModelStd Model
     ExprSpec World MapProofs StdPropProofs EvalProofs PathProofs DerivProofs DiffProofs PanicProofs GradProofs
     MatSpec MatrixProofs ProblemProofs ConstrSpec ConstrProofs ConstrEquiv PartsProofs StdFacts BuildProofs BuildMain ModelSpec EvalRun Api ApiProofs ModelApi HistProofs StdMain Properties_Expr Properties_Constr Properties_Std ModelExample Properties_Solve
     TextSpec ExactSpec RoundSpec PolySpec FmtProofs FloatProofs FloatOps RoundOps RoundProofs Properties_Text Properties_Exact Properties_Round
     BitSpec BitProofs Properties_Bit ArithKind DerEstSpec DerEstProofs Properties_DerEst Properties_Full SecondSpec Properties_Second PlaceSpec GapSpec Properties_Gap
     SolverBase Ipopt IpoptSpec IpoptProofs Properties_Ipopt EndSpec Properties_Cmd Properties_EndIpopt ToldSpec.
From Coq Require Import Reals Lra Lia Floats.SpecFloat.
Import RoundSpec.

(** ** Positions *)
Lemma told_pos {T} (l : list (nat * nat * T)) i j :
  told_at (map (fun e => Z.of_nat (fst (fst e))) l) (map (fun e => Z.of_nat (snd (fst e))) l) (map snd l) i j =
  map snd (filter (fun e => (fst (fst e) =? i) && (snd (fst e) =? j)) l).
Proof.
  unfold told_at. induction l as [|[[a b] v] l IH]; [reflexivity|]. cbn [map combine filter fst snd].
  assert (Ea : (Z.of_nat a =? Z.of_nat i)%Z = (a =? i)) by (destruct (Nat.eqb_spec a i), (Z.eqb_spec (Z.of_nat a) (Z.of_nat i)); auto; lia).
  assert (Eb : (Z.of_nat b =? Z.of_nat j)%Z = (b =? j)) by (destruct (Nat.eqb_spec b j), (Z.eqb_spec (Z.of_nat b) (Z.of_nat j)); auto; lia).
  rewrite Ea, Eb. destruct ((a =? i) && (b =? j)); cbn [map snd]; [f_equal|]; exact IH.
Qed.
Lemma at_pos_col {T} (a : coo T) i j : at_pos a i j = at_col j (row_of i (entries a)).
Proof.
  unfold at_pos, at_col, row_of. induction (entries a) as [|[[r c] v] l IH]; [reflexivity|]. cbn [filter fst snd].
  destruct (r =? i); cbn [andb]; [|exact IH]. cbn [map filter fst snd]. destruct (c =? j); cbn [map snd]; [f_equal|]; exact IH.
Qed.
Definition shifted {T} (off : nat) (l : list (nat * nat * T)) : list (nat * nat * T) := map (fun e => (off + fst (fst e), snd (fst e), snd e)) l.
Lemma told_jac {T} `{Num T} (q0 : minlp T) (j' : coo T) k i : coo_wf (m_a q0) -> coo_wf j' ->
  map fst (entries j') = map fst (entries (b_j (m_bufs q0))) ->
  told_at (jac_rows q0) (jac_cols q0) (coo_data (m_a q0) ++ coo_data j') k i =
  map snd (filter (fun e => (fst (fst e) =? k) && (snd (fst e) =? i)) (entries (m_a q0) ++ shifted (m_na q0) (entries j'))).
Proof.
  intros Wa Wj' Ep. rewrite <- told_pos. f_equal.
  - unfold jac_rows, rows_at. rewrite map_app. f_equal. unfold shifted. rewrite map_map. cbn [fst snd].
    transitivity (map (fun p : nat * nat => Z.of_nat (m_na q0 + fst p)) (map fst (entries (b_j (m_bufs q0))))); [rewrite map_map; reflexivity|].
    rewrite <- Ep, map_map. reflexivity.
  - unfold jac_cols, cols_at. rewrite map_app. f_equal. unfold shifted. rewrite map_map. cbn [fst snd].
    transitivity (map (fun p : nat * nat => Z.of_nat (snd p)) (map fst (entries (b_j (m_bufs q0))))); [rewrite map_map; reflexivity|].
    rewrite <- Ep, map_map. reflexivity.
  - rewrite map_app, (entries_data _ Wa). f_equal. unfold shifted. rewrite map_map. cbn [snd]. symmetry. exact (entries_data _ Wj').
Qed.
Lemma told_row {T} (A j' : coo T) na k i : k < na ->
  map snd (filter (fun e => (fst (fst e) =? k) && (snd (fst e) =? i)) (entries A ++ shifted na (entries j'))) = at_pos A k i.
Proof.
  intros Hk. rewrite filter_app, map_app, (filter_none _ (shifted na _)); [rewrite app_nil_r; reflexivity|].
  intros [[a b] v] Hin. unfold shifted in Hin. apply in_map_iff in Hin as (e & Ee & _). injection Ee as <- _ _. cbn [fst].
  rewrite (proj2 (Nat.eqb_neq _ _)) by lia. reflexivity.
Qed.
Lemma told_fun {T} (A j' : coo T) na r i : indices_ok A -> coo_rows A = na ->
  map snd (filter (fun e => (fst (fst e) =? na + r) && (snd (fst e) =? i)) (entries A ++ shifted na (entries j'))) = at_pos j' r i.
Proof.
  intros HA Hr. rewrite filter_app, map_app, (filter_none _ (entries A)).
  - cbn [map app]. unfold at_pos, shifted. induction (entries j') as [|[[a b] v] l IH]; [reflexivity|]. cbn [map filter fst snd].
    assert (Ea : (na + a =? na + r) = (a =? r)) by (destruct (Nat.eqb_spec a r), (Nat.eqb_spec (na + a) (na + r)); auto; lia).
    rewrite Ea. destruct ((a =? r) && (b =? i)); cbn [map snd]; [f_equal|]; exact IH.
  - intros [[a b] v] Hin. cbn [fst]. destruct (HA a b v Hin) as [Ha _]. rewrite (proj2 (Nat.eqb_neq _ _)) by lia. reflexivity.
Qed.
Lemma scaled_pos {T} `{Num T} s (h : coo T) i j :
  map snd (filter (fun e => (fst (fst e) =? i) && (snd (fst e) =? j)) (scaled s h)) = map (nmul s) (at_pos h i j).
Proof.
  unfold scaled, at_pos. induction (entries h) as [|[[a b] v] l IH]; [reflexivity|]. cbn [map filter fst snd].
  destruct ((a =? i) && (b =? j)); cbn [map snd]; [f_equal|]; exact IH.
Qed.
Lemma scaled_list {T} `{Num T} i j : forall (hs : list (coo T)) (nu : list T),
  map snd (filter (fun e => (fst (fst e) =? i) && (snd (fst e) =? j)) (flat_map (fun hn => scaled (snd hn) (fst hn)) (combine hs nu))) =
  concat (map (fun e => map (fun y => nmul (fst e) y) (snd e)) (combine nu (map (fun h => at_pos h i j) hs))).
Proof.
  induction hs as [|h hs IH]; intros [|y nu]; try reflexivity. cbn [combine flat_map map concat fst snd].
  rewrite filter_app, map_app, IH, scaled_pos. reflexivity.
Qed.
Lemma combine_nth_same {A B} (l : list A) (l' : list B) k a b : nth_error l k = Some a -> nth_error l' k = Some b -> nth_error (combine l l') k = Some (a, b).
Proof.
  revert l' k. induction l as [|y l IH]; intros [|y' l'] [|k] Ha Hb; cbn in *; try discriminate; [congruence|]. apply IH; assumption.
Qed.
Lemma residual_at {T} `{Num T} (q0 : minlp T) x i b : length (m_b q0) = coo_rows (m_a q0) -> nth_error (m_b q0) i = Some b ->
  nth_error (residuals q0 x) i = Some (nsub (row_dot (row_of i (entries (m_a q0))) x) b).
Proof.
  intros L Eb. unfold residuals. rewrite nth_error_map.
  rewrite (combine_nth_same _ _ i (row_dot (row_of i (entries (m_a q0))) x) b); [reflexivity| |exact Eb].
  rewrite nth_error_map. assert (Hlt : i < coo_rows (m_a q0)) by (rewrite <- L; apply nth_error_Some; congruence).
  rewrite nth_error_nth' with (d := 0) by (rewrite seq_length; exact Hlt). rewrite seq_nth by exact Hlt. reflexivity.
Qed.
Lemma residual_len {T} `{Num T} (q0 : minlp T) x : length (m_b q0) = coo_rows (m_a q0) -> length (residuals q0 x) = m_na q0.
Proof. intros L. unfold residuals, m_na. rewrite map_length, combine_length, map_length, seq_length, L. apply Nat.min_id. Qed.

Section Exact.
  Context {T : Type} `{Num T} `{HashOrd}.
  Variables (st : mstate T) (m : model T) (sp : std_prob T) (k' : nat) (q : nlp T).
  Hypothesis Hnm : neqb (@nm1 T _) n0 = false.
  Hypothesis Hh : hist any_op st.
  Hypothesis Hm : In m (st_models st).
  Hypothesis E : std_problem m (st_k st) = Ok (sp, k').
  Hypothesis Hq : for_ipopt (sp_prob sp) = Some q.
  Hypothesis Sx : small (m_nx (nlp_base q)).
  Hypothesis Sm : small (m_na (nlp_base q) + m_nf (nlp_base q)).

  Lemma told_base : nlp_base q = base_of (sp_prob sp).
  Proof. exact (ipopt_base st m sp k' q Hh Hm E Hq). Qed.
  Lemma told_sane : nlp_sane (nlp_base q).
  Proof. exact (C49_models st m sp k' q Hh Hm E Hq Sx Sm). Qed.
  Lemma linear_no_rows : is_linear sp -> sp_jcons sp = [].
  Proof.
    intros Hcl. destruct (hist_run st m sp k' Hh Hm E) as (S & obj & S' & eo & ke & ko & ps & ar & jr & uc & lc & Hi & Mi & HW & Em & R & Esp & _).
    destruct (sr_rows _ _ _ _ _ _ _ _ _ _ _ _ _ R) as [_ _ _ _ R5 _ _].
    assert (Hl : p_linear obj (cat ps) = true).
    { rewrite Esp in Hcl. unfold is_linear in Hcl. cbn [sp_prob] in Hcl. unfold p_problem in Hcl.
      destruct (p_linear obj (cat ps)); [reflexivity|]. destruct (no_int k' obj (cat ps)); destruct Hcl; discriminate. }
    unfold p_linear in Hl. apply andb_true_iff in Hl as [_ Hl]. apply Nat.eqb_eq in Hl. rewrite Hl in R5.
    assert (Ej : length (sp_jcons sp) = 0) by (rewrite Esp; cbn [sp_jcons]; rewrite <- (map_length fst), enum_fst, seq_length; exact R5).
    destruct (sp_jcons sp); [reflexivity|discriminate].
  Qed.
  Lemma not_linear : ~ is_linear sp -> class_of (sp_prob sp) = ClNlp \/ class_of (sp_prob sp) = ClMinlp.
  Proof. unfold is_linear. destruct (class_of (sp_prob sp)); tauto. Qed.
  Lemma linear_dec : is_linear sp \/ ~ is_linear sp.
  Proof. unfold is_linear. destruct (class_of (sp_prob sp)); first [left; tauto|right; intros [F0|F0]; discriminate F0]. Qed.
  Lemma told_values x bf : values_at (nlp_base q) x bf ->
    length x = m_nx (nlp_base q) -> is_linear sp /\ (exists e, minimises (md_objective m) e /\ p_affine (std_properties e) = true /\ is_coefficients sp e (b_gphi bf) /\
         b_phi bf = fold_left (fun acc cx => nadd acc (nmul (fst cx) (snd cx))) (combine (b_gphi bf) x) n0 /\ entries (b_hphi bf) = []) \/
      ~ is_linear sp /\ objective_values sp x (md_objective m) bf /\
        forall i c, In (i, c) (sp_jcons sp) -> In c (md_constraints m) /\ exists sl, own_slack (st_k st) sp c sl /\ row_values sp x c sl i bf.
  Proof.
    intros (q' & Eq & <-) Hx. rewrite told_base in *. destruct linear_dec as [Hl|Hl]; [left|right]; (split; [exact Hl|]).
    - destruct (C74_linear st m sp k' Hh Hm E _ x Hl (ev_start _) Hx) as (q2 & e & Eq2 & G1 & G2 & G3 & G4 & G5 & _). rewrite Eq in Eq2. injection Eq2 as <-. exists e. auto.
    - destruct (C74_nonlinear st m sp k' Hnm Hh Hm E _ x (not_linear Hl) (ev_start _) Hx) as (q2 & Eq2 & G1 & _ & _ & G2). rewrite Eq in Eq2. injection Eq2 as <-. auto.
  Qed.
  Lemma told_fixed x bf : values_at (nlp_base q) x bf -> exists q1, m_bufs q1 = bf /\ fixed (nlp_base q) q1.
  Proof. intros V. destruct (shape_of _ _ _ V) as (q1 & He & Eq). exists q1. split; [exact Eq|exact (fixed_ok _ _ told_sane He)]. Qed.
  Lemma acons_lt i c : In (i, c) (sp_acons sp) -> i < m_na (nlp_base q).
  Proof.
    intros Hi. destruct (C74_rows st m sp k' Hh Hm E) as [Ei _]. apply (in_map fst) in Hi. rewrite Ei in Hi. apply in_seq in Hi. rewrite told_base. cbn [fst] in Hi. unfold m_na. lia.
  Qed.

  Lemma lag_length : length (lag_pos (m_bufs (nlp_base q))) = nnzh (nlp_base q).
  Proof.
    pose proof told_sane as Hs. unfold lag_pos, nnzh. rewrite app_length, map_length.
    assert (Le : forall a : coo T, coo_wf a -> length (entries a) = coo_nnz a) by (intros a [W1 W2]; unfold entries, coo_nnz; rewrite !combine_length; lia).
    rewrite Le by (apply (fx_whphi _ _ (fixed_ok _ _ Hs (ev_start _)))). f_equal.
    destruct (h_shape _ Hs _ (ev_start _)) as [Wh _]. clear -Wh Le. induction Wh as [|a l Wa Wl IH]; [reflexivity|]. cbn [flat_map map list_sum fold_right].
    rewrite app_length, map_length, (Le a Wa), IH. reflexivity.
  Qed.

  (** The numbers told at a position of the Hessian. *)
  Lemma told_lag bf fac nu : map fst (lagrangian bf fac nu) = lag_pos (m_bufs (nlp_base q)) -> forall i j,
    told_at (hess_rows (nlp_base q)) (hess_cols (nlp_base q)) (map snd (lagrangian bf fac nu)) i j =
      map (fun y => nmul fac y) (at_pos (b_hphi bf) i j) ++
      concat (map (fun e => map (fun y => nmul (fst e) y) (snd e)) (combine nu (map (fun h => at_pos h i j) (b_h bf)))).
  Proof.
    intros Epos i j. unfold hess_rows, hess_cols. rewrite <- Epos, !map_map, told_pos. unfold lagrangian. rewrite filter_app, map_app, scaled_pos, scaled_list. reflexivity.
  Qed.
  (** ** C80 Whatever sequence of requests Ipopt makes, the answers are the model, number for number. *)
  Theorem C80_exact p calls : evolves (nlp_base q) (nlp_base p) -> Forall (well_called (nlp_base q)) calls -> honours None calls ->
    exists p' rs, run_calls p calls = Ok (p', rs) /\ Forall2 (exact_reply (st_k st) m sp (nlp_base q)) calls rs.
  Proof.
    intros Hev Hw Ho. pose proof told_sane as Hs.
    destruct (C49_values _ Hs p calls Hev Hw Ho) as (p' & rs & Er & _ & L & RV).
    destruct (C50_new_lambda _ Hs p calls Hev Hw Ho) as (p2 & rs2 & Er2 & _ & RH). rewrite Er in Er2. injection Er2 as <- <-.
    exists p', rs. split; [exact Er|]. apply nth_forall2; [exact L|]. intros n c r Hc Hrn.
    specialize (RV n c r Hc Hrn). specialize (RH n c r Hc Hrn).
    rewrite Forall_forall in Hw. specialize (Hw c (nth_error_In _ _ Hc)).
    assert (Hpt : forall xs, point_ok (nlp_base q) (Some xs) -> length xs = m_nx (nlp_base q)) by (intros xs (l & El & Hl); congruence).
    pose proof (fixed_ok _ _ Hs (ev_start _)) as F0.
    destruct (C74_rows st m sp k' Hh Hm E) as [_ HR]. rewrite <- told_base in HR.
    destruct c as [n' x f o|n' x f o|n' x f m' o|n' x f m' ne ir jc o|n' x f fac m' la nl ne ir jc o]; cbn [exact_reply].
    - destruct x as [xs|]; [|exact Logic.I]. destruct RV as (bf & V & ->). destruct Hw as (_ & Hx & _). specialize (Hpt xs Hx).
      exists (b_phi bf). split; [reflexivity|]. destruct (told_values xs bf V Hpt) as [[Hl (e & G1 & G2 & G3 & G4 & _)]|[Hl ([G1 _] & _)]]; (split; intros Hl'; try (exfalso; tauto; fail)).
      + exists e, (b_gphi bf). auto.
      + exact G1.
    - destruct x as [xs|]; [|exact Logic.I]. destruct RV as (bf & V & ->). destruct Hw as (_ & Hx & _). specialize (Hpt xs Hx).
      exists (b_gphi bf). destruct (told_values xs bf V Hpt) as [[Hl (e & G1 & G2 & G3 & _)]|[Hl ([_ (e & G1 & _ & G2)] & _)]]; exists e; (split; [reflexivity|]); (split; [exact G1|]).
      + rewrite G2. exact G3.
      + destruct (p_affine (std_properties e)); apply G2.
    - destruct x as [xs|]; [|exact Logic.I]. destruct RV as (bf & V & ->). destruct Hw as (_ & _ & Hx & _). specialize (Hpt xs Hx).
      destruct (told_fixed xs bf V) as (q1 & Eb & F1). pose proof (residual_len (nlp_base q) xs (fx_lb _ _ F0)) as Lr.
      eexists. split; [reflexivity|]. split; [rewrite app_length, Lr; f_equal; rewrite <- (fx_nf _ _ F1), <- Eb; reflexivity|]. split.
      + intros i cn Hi. destruct (HR i cn Hi) as (Hin & sl & Hsl & Hex & Hd). split; [exact Hin|].
        exists sl, (row_of i (entries (m_a (nlp_base q)))). split; [exact Hsl|]. split.
        { apply Forall_forall. intros [j v] Hj. unfold row_of in Hj. apply in_map_iff in Hj as ([[i' j'] v'] & Ee & Hj). apply filter_In in Hj as [Hj _].
          injection Ee as <- <-. exact (proj2 (fx_ia _ _ F0 _ _ _ Hj)). }
        split; [exact Hex|]. intros d Hd'. destruct (Hd d Hd') as (_ & Eb' & Hco). split.
        { intros v j Hv. rewrite <- at_pos_col. exact (Hco v j Hv). }
        rewrite nth_error_app1 by (rewrite Lr; exact (acons_lt i cn Hi)). apply residual_at; [exact (fx_lb _ _ F0)|exact Eb'].
      + intros i cn Hi. destruct (told_values xs bf V Hpt) as [[Hl _]|[_ (_ & G2)]]; [rewrite (linear_no_rows Hl) in Hi; destruct Hi|].
        destruct (G2 i cn Hi) as (Hin & sl & Hsl & [(y & Ey & Hy) _]). split; [exact Hin|]. exists sl, y. split; [exact Hsl|]. split; [|exact Hy].
        rewrite nth_error_app2 by lia. rewrite Lr. replace (m_na (nlp_base q) + i - m_na (nlp_base q)) with i by lia. exact Ey.
    - destruct x as [xs|]; [|exact Logic.I]. destruct o as [mem|]; [|exact Logic.I]. destruct RV as (bf & V & ->).
      destruct Hw as (_ & _ & _ & [(Ho' & _)|(Hx & _)]); [discriminate|]. specialize (Hpt xs Hx).
      destruct (told_fixed xs bf V) as (q1 & Eb & F1).
      assert (Wj : coo_wf (b_j bf)) by (rewrite <- Eb; exact (fx_wj _ _ F1)).
      assert (Ep : map fst (entries (b_j bf)) = map fst (entries (b_j (m_bufs (nlp_base q))))).
      { rewrite <- Eb. apply same_pattern; [exact (fx_j _ _ F1)|exact (fx_wj _ _ F0)]. }
      eexists. split; [reflexivity|]. split.
      { unfold nnzj, coo_nnz. rewrite app_length. destruct (fx_j _ _ F1) as (_ & _ & Er' & _ & El). rewrite Eb in El, Er'. destruct Wj as [_ W2]. destruct (fx_wa _ _ F0) as [_ W3]. congruence. }
      split.
      + intros i cn Hi. destruct (HR i cn Hi) as (Hin & sl & Hsl & (d & Hd') & Hd). split; [exact Hin|]. exists sl, d. split; [exact Hsl|]. split; [exact Hd'|].
        intros v j Hv. rewrite (told_jac _ _ _ _ (fx_wa _ _ F0) Wj Ep), told_row by exact (acons_lt i cn Hi). destruct (Hd d Hd') as (_ & _ & Hco). exact (Hco v j Hv).
      + intros i cn Hi. destruct (told_values xs bf V Hpt) as [[Hl _]|[_ (_ & G2)]]; [rewrite (linear_no_rows Hl) in Hi; destruct Hi|].
        destruct (G2 i cn Hi) as (Hin & sl & Hsl & [_ (d & h & Hd & _ & _ & _ & Hj & _)]). split; [exact Hin|]. exists sl, d. split; [exact Hsl|]. split; [exact Hd|].
        intros v j Hv. cbv zeta. rewrite (told_jac _ _ _ _ (fx_wa _ _ F0) Wj Ep), told_fun by first [exact (fx_ia _ _ F0)|exact (eq_sym (fx_lb _ _ F0))]. exact (Hj v j Hv).
    - destruct x as [xs|]; [|exact Logic.I]. destruct la as [la|]; [|exact Logic.I]. destruct o as [mem|]; [|exact Logic.I]. intros ->.
      assert (R : right_hessian (nlp_base q) (EvalH n' (Some xs) f fac m' (Some la) 1%Z ne ir jc (Some mem)) r) by (apply RH; left; reflexivity).
      cbn [right_hessian] in R. destruct R as (bf & V & Epos & ->). cbn [well_called] in Hw.
      destruct Hw as (_ & _ & _ & [(Ho' & _)|(Hx & Hmem & (la' & El & Lla))]); [discriminate|]. injection El as <-. specialize (Hpt xs Hx).
      destruct (told_fixed xs bf V) as (q1 & Eb & F1).
      assert (Hlen : length (b_h bf) = m_nf (nlp_base q)) by (rewrite <- Eb; exact (fx_lh _ _ F1)).
      pose proof (told_lag bf fac (skipn (m_na (nlp_base q)) la) Epos) as Hone.
      destruct (told_values xs bf V Hpt) as [[Hl (e & G1 & G2 & _ & _ & G5)]|[Hl ([_ (e & G1 & _ & G2)] & G3)]]; exists (map snd (lagrangian bf fac (skipn (m_na (nlp_base q)) la))), e;
        (split; [reflexivity|]); (split; [rewrite map_length, <- (map_length fst), Epos; exact lag_length|]); (split; [exact G1|]);
        intros v i w j Hv Hw Hji; exists (at_pos (b_hphi bf) i j), (map (fun h => at_pos h i j) (b_h bf)); (split; [apply Hone|]).
      + rewrite G2. split; [unfold at_pos; rewrite G5; reflexivity|]. split; [rewrite map_length; exact Hlen|].
        intros t cn Ht. rewrite (linear_no_rows Hl) in Ht. destruct Ht.
      + split.
        { destruct (p_affine (std_properties e)); destruct G2 as [_ G2]; [unfold at_pos; rewrite G2; reflexivity|]. exact (G2 v i w j Hv Hw Hji). }
        split; [rewrite map_length; exact Hlen|]. intros t cn Ht. destruct (G3 t cn Ht) as (Hin & sl & Hsl & [_ (d & h & Hd & _ & _ & _ & _ & Eh & Hhs)]).
        split; [exact Hin|]. exists d, (at_pos h i j). split; [exact Hd|]. split; [rewrite nth_error_map, Eh; reflexivity|]. exact (Hhs v i w j Hv Hw Hji).
  Qed.
End Exact.

(** ** C80 During a solve: the requests the library makes are answered by the model. *)
Theorem C80_returns {T} `{Num T} `{HashOrd} lib params (st : mstate T) m sp k' q lvl sb x0 :
  neqb (@nm1 T _) n0 = false ->
  hist any_op st -> In m (st_models st) -> std_problem m (st_k st) = Ok (sp, k') -> for_ipopt (sp_prob sp) = Some q ->
  small (m_nx (nlp_base q)) -> small (m_na (nlp_base q) + m_nf (nlp_base q)) -> small (nnzj (nlp_base q)) -> small (nnzh (nlp_base q)) ->
  get_param (after ipopt_new params) "print_level" = Some (IntParam lvl) -> get_param (after ipopt_new params) "sb" = Some (StrParam sb) -> ~ contains_nul sb ->
  lib_create lib (create_of q) = true -> lib_int lib "print_level" lvl = true -> lib_str lib "sb" sb = true ->
  m_x0 (nlp_base q) = Some x0 -> lawful (nlp_base q) None (lib_solve lib (create_of q) lvl sb x0) ->
  exists m' p' cs rs code x la pi mu,
    solve (ipopt_solver lib (after ipopt_new params)) m (st_k st) = (m', Returned (inl tt), k') /\
    plays (lib_solve lib (create_of q) lvl sb x0) q p' cs code x la pi mu /\
    run_calls q cs = Ok (p', rs) /\ Forall2 (exact_reply (st_k st) m sp (nlp_base q)) cs rs.
Proof.
  intros Hnm Hh Hm E Hq S1 S2 S3 S4 G1 G2 Hn L1 L2 L3 Ex Hl.
  destruct (C58_returns lib params st m sp k' q lvl sb x0 Hh Hm E Hq S1 S2 S3 S4 G1 G2 Hn L1 L2 L3 Ex Hl) as (m' & p' & cs & rs & code & x & la & pi & mu & R1 & R2 & R3 & R4 & R5).
  destruct (C80_exact st m sp k' q Hnm Hh Hm E Hq S1 S2 q cs (ev_start _) R3 R4) as (p2 & rs2 & R6 & R7). rewrite R5 in R6. injection R6 as <- <-.
  exists m', p', cs, rs, code, x, la, pi, mu. auto.
Qed.

(** ** C80 Up to rounding *)
Local Open Scope R_scope.
Lemma sv_sub x f m k y g l j : sv x f m k -> sv y g l j -> sv (SFsub 53 1024 x y) (f - g) (m + l) (k + j + 1).
Proof.
  intros Sx Sy. constructor; [apply sub_vb; [apply Sx|apply Sy]|unfold Rminus; eapply Rle_trans; [apply Rabs_triang|]; rewrite Rabs_Ropp; pose proof (sv_abs _ _ _ _ Sx); pose proof (sv_abs _ _ _ _ Sy); lra|].
  intros Hf. assert (Hxy : fin x /\ fin y).
  { destruct Hf as [_ Hf]. split; split; try apply Sx; try apply Sy; destruct x as [?|?| |? ? ?], y as [?|?| |? ? ?]; try reflexivity; try discriminate Hf; cbn in Hf;
      repeat match type of Hf with context [Bool.eqb ?a ?b] => destruct (Bool.eqb a b) | context [if ?a then _ else _] => destruct a end; discriminate Hf. }
  destruct Hxy as [Fx Fy]. exact (sub_sv _ _ _ _ _ _ _ _ Sx Sy Fx Fy Hf).
Qed.
Lemma row_sv (fsin fcos : F -> F) (row : list (nat * F)) x b : finite64 b -> Forall (fun e => finite64 (snd e)) row -> Forall finite64 x ->
  let r := fun j => float_value (nth j x (flit 0)) in
  sv (@nsub F (NumF fsin fcos) (@row_dot F (@mat_item_num F (NumF fsin fcos)) row x) b) (row_real row x b) (e_mag (e_row row b) r) (e_ops (e_row row b)).
Proof.
  intros Fb Fr Fx r.
  assert (Fj : forall j, finite64 (nth j x (flit 0))).
  { intros j. destruct (Nat.lt_ge_cases j (length x)) as [Hj|Hj]; [rewrite Forall_forall in Fx; apply Fx, nth_In; exact Hj|rewrite nth_overflow by exact Hj; split; reflexivity]. }
  assert (G : forall row acc s e, Forall (fun e => finite64 (snd e)) row -> sv acc s (e_mag e r) (e_ops e) ->
     sv (fold_left (fun acc e => SFadd 53 1024 acc (SFmul 53 1024 (nth (fst e) x (flit 0)) (snd e))) row acc)
        (fold_left (fun s e => s + float_value (nth (fst e) x (flit 0)) * float_value (snd e)) row s)
        (e_mag (fold_left (fun s e => e_add s (e_mul (e_var (fst e)) (e_const (snd e)))) row e) r)
        (e_ops (fold_left (fun s e => e_add s (e_mul (e_var (fst e)) (e_const (snd e)))) row e))).
  { clear row Fr. induction row as [|[j v] row IH]; intros acc s e Hr Ha; [exact Ha|]. inversion Hr as [|? ? Hv Hr']; subst. cbn [fold_left fst snd] in *. apply IH; [exact Hr'|].
    pose proof (sv_exact _ (proj1 (finite_fin _) (Fj j))) as S1. pose proof (sv_exact _ (proj1 (finite_fin _) Hv)) as S2. rewrite <- !float_value_fval in S1, S2.
    pose proof (sv_mul _ _ _ _ _ _ _ _ S1 S2) as S3.
    cbn [e_add e_mul e_var e_const e_mag e_ops]. unfold r. replace (INR ((0 + 1) * (0 + 1)) * tiny) with tiny by (cbn; ring).
    replace (e_ops e + (0 + 0 + 1) + 1)%nat with (Datatypes.S (e_ops e + 1)) by lia.
    apply sv_add; [eapply sv_weak; [exact Ha|apply Rle_refl|lia]|eapply sv_weak; [exact S3|apply Rle_refl|lia]]. }
  unfold row_real. cbn [e_row e_sub e_mag e_ops]. unfold e_row, e_sub. cbn [e_mag e_ops e_const]. 
  apply sv_sub; [|rewrite float_value_fval; exact (sv_exact _ (proj1 (finite_fin _) Fb))].
  apply (G row (flit 0) 0 (e_const (flit 0)) Fr). cbn [e_const e_mag e_ops].
  pose proof (sv_exact _ fin_flit0) as S0. rewrite fval_flit0 in S0. rewrite float_value_fval, fval_flit0. exact S0.
Qed.

Lemma nth_app_ge {A} (l l2 : list A) n i : length l = n -> nth_error (l ++ l2) (n + i) = nth_error l2 i.
Proof. intros <-. rewrite nth_error_app2 by lia. f_equal. lia. Qed.
Lemma nth_app_lt {A} (l l2 : list A) n i : length l = n -> (i < n)%nat -> nth_error (l ++ l2) i = nth_error l i.
Proof. intros <- Hi. apply nth_error_app1, Hi. Qed.

Section Rounded.
  Variables fsin fcos : F -> F.
  Notation NF := (NumF fsin fcos).
  Local Instance num_f : Num F := NF.
  Hypothesis Hsin : accurate fsin sin.
  Hypothesis Hcos : accurate fcos cos.
  Context (HO : HashOrd).
  Variables (st : mstate F) (m : model F) (sp : std_prob F) (k' : nat) (q : nlp F).
  Hypothesis Hh : @hist F NF any_op st.
  Hypothesis Hm : In m (st_models st).
  Hypothesis E : @std_problem F NF HO m (st_k st) = Ok (sp, k').
  Hypothesis Hq : for_ipopt (sp_prob sp) = Some q.
  Hypothesis Sx : small (m_nx (nlp_base q)).
  Hypothesis Sm : small (m_na (nlp_base q) + m_nf (nlp_base q)).
  Hypothesis Hnl : class_of (sp_prob sp) = ClNlp.

  Local Ltac at_point lem V Hpt Has Hr G :=
    let q2 := fresh in let Eq2 := fresh in let Ebf := fresh in let q3 := fresh in let Eq3 := fresh in let Hx := fresh in
    destruct V as (q2 & Eq2 & Ebf);
    match goal with Eb0 : nlp_base q = _ |- _ => rewrite Eb0 in Eq2; pose proof Hpt as Hx; rewrite Eb0 in Hx end;
    destruct (lem HO st m sp k' _ _ _ _ Hh Hm E (or_introl Hnl) (@ev_start F NF _) Hx Has Hr) as (q3 & Eq3 & G);
    rewrite Eq2 in Eq3; injection Eq3 as <-; rewrite Ebf in G.

  (** ** C80 The answers to requests about a nonlinear problem are values and derivatives of the real functions, up to rounding. *)
  Theorem C80_rounded p calls : @evolves F NF (nlp_base q) (nlp_base p) -> Forall (well_called (nlp_base q)) calls -> honours None calls ->
    exists p' rs, @run_calls F NF p calls = Ok (p', rs) /\ Forall2 (near_reply NF (st_k st) m sp (nlp_base q)) calls rs.
  Proof.
    intros Hev Hw Ho. pose proof (told_sane st m sp k' q Hh Hm E Hq Sx Sm) as Hs. pose proof (told_base st m sp k' q Hh Hm E Hq) as Eb0.
    destruct (C49_values _ Hs p calls Hev Hw Ho) as (p' & rs & Er & _ & L & RV).
    destruct (C50_new_lambda _ Hs p calls Hev Hw Ho) as (p2 & rs2 & Er2 & _ & RH). rewrite Er in Er2. injection Er2 as <- <-.
    exists p', rs. split; [exact Er|]. apply nth_forall2; [exact L|]. intros n c r Hc Hrn.
    specialize (RV n c r Hc Hrn). specialize (RH n c r Hc Hrn). rewrite Forall_forall in Hw. specialize (Hw c (nth_error_In _ _ Hc)).
    assert (Hpt : forall xs, point_ok (nlp_base q) (Some xs) -> length xs = m_nx (nlp_base q)) by (intros xs (l & El & Hl); congruence).
    pose proof (fixed_ok _ _ Hs (@ev_start F NF _)) as F0.
    destruct c as [n' x f o|n' x f o|n' x f m' o|n' x f m' ne ir jc o|n' x f fac m' la nl ne ir jc o]; cbn [near_reply].
    - destruct x as [xs|]; [|exact Logic.I]. destruct RV as (bf & V & ->). destruct Hw as (_ & Hx & _). specialize (Hpt xs Hx).
      exists (b_phi bf). split; [reflexivity|]. intros vs rr Has Hr. at_point (C76_model fsin fcos Hsin Hcos) V Hpt Has Hr G. destruct G as [(e & He & G1 & _) _]. exists e. auto.
    - destruct x as [xs|]; [|exact Logic.I]. destruct RV as (bf & V & ->). destruct Hw as (_ & Hx & _). specialize (Hpt xs Hx).
      exists (b_gphi bf). split; [reflexivity|]. intros vs rr Has Hr. at_point (C76_model fsin fcos Hsin Hcos) V Hpt Has Hr G. destruct G as [(e & He & _ & G1) _]. exists e. auto.
    - destruct x as [xs|]; [|exact Logic.I]. destruct RV as (bf & V & ->). destruct Hw as (_ & _ & Hx & _). specialize (Hpt xs Hx).
      pose proof (residual_len (nlp_base q) xs (fx_lb _ _ F0)) as Lr.
      eexists. split; [reflexivity|]. split.
      + intros i b Eb. exists (@nsub F NF (row_dot (row_of i (entries (m_a (nlp_base q)))) xs) b), (row_of i (entries (m_a (nlp_base q)))). split; [|split].
        * refine (eq_trans (nth_app_lt _ _ _ _ Lr _) _); [|apply residual_at; [exact (fx_lb _ _ F0)|exact Eb]].
          apply nth_error_Some. intros Hnone. exact (eq_ind None (fun o => match o with None => True | _ => False end) Logic.I _ (eq_trans (eq_sym Hnone) Eb)).
        * intros j. apply at_pos_col.
        * intros Fb Fr Fxs Fy. pose proof (row_sv fsin fcos _ xs b Fb Fr Fxs) as [S1 _ S2]. rewrite float_value_fval. apply S2. split; [exact S1|exact Fy].
      + intros vs rr Has Hr i cn Hi. at_point (row_slack fsin fcos Hsin Hcos) V Hpt Has Hr G. destruct (G i cn Hi) as (Hin & sl & y & Hsl & Ey & Hy & _). split; [exact Hin|]. exists sl, y.
        split; [exact Hsl|]. split.
        { exact (eq_trans (nth_app_ge _ _ _ _ Lr) Ey). }
        intros A1 A2 A3 A4. destruct (Hy A1 A2 A3 A4) as (B1 & B2 & _). split; assumption.
    - destruct x as [xs|]; [|exact Logic.I]. destruct o as [mem|]; [|exact Logic.I]. destruct RV as (bf & V & ->).
      destruct Hw as (_ & _ & _ & [(Ho' & _)|(Hx & _)]); [discriminate|]. specialize (Hpt xs Hx).
      destruct (told_fixed st m sp k' q Hh Hm E Hq Sx Sm xs bf V) as (q1 & Eb & F1).
      assert (Wj : coo_wf (b_j bf)) by (rewrite <- Eb; exact (fx_wj _ _ F1)).
      assert (Ep : map fst (entries (b_j bf)) = map fst (entries (b_j (m_bufs (nlp_base q))))).
      { rewrite <- Eb. apply same_pattern; [exact (fx_j _ _ F1)|exact (fx_wj _ _ F0)]. }
      eexists. split; [reflexivity|]. intros vs rr Has Hr i cn Hi. at_point (C76_model fsin fcos Hsin Hcos) V Hpt Has Hr G.
      destruct (proj2 G i cn Hi) as (Hin & sl & d & y & _ & Hd & _ & _ & Hj). split; [exact Hin|]. exists d. split; [exact Hd|].
      intros A1 A2 v j Hv Hocc. destruct (Hj A1 A2 v j Hv Hocc) as (z & D & B1 & B2). exists z, D. split; [|exact B2].
      rewrite (told_jac _ _ _ _ (fx_wa _ _ F0) Wj Ep), told_fun by first [exact (fx_ia _ _ F0)|exact (eq_sym (fx_lb _ _ F0))]. exact B1.
    - destruct x as [xs|]; [|exact Logic.I]. destruct la as [la|]; [|exact Logic.I]. destruct o as [mem|]; [|exact Logic.I]. intros ->.
      assert (R : right_hessian (nlp_base q) (EvalH n' (Some xs) f fac m' (Some la) 1%Z ne ir jc (Some mem)) r) by (apply RH; left; reflexivity).
      cbn [right_hessian] in R. destruct R as (bf & V & Epos & ->). cbn [well_called] in Hw.
      destruct Hw as (_ & _ & _ & [(Ho' & _)|(Hx & _)]); [discriminate|]. specialize (Hpt xs Hx).
      destruct (told_fixed st m sp k' q Hh Hm E Hq Sx Sm xs bf V) as (q1 & Eb & F1).
      assert (Hlen : length (b_h bf) = m_nf (nlp_base q)) by (rewrite <- Eb; exact (fx_lh _ _ F1)).
      pose proof (told_lag q bf fac (skipn (m_na (nlp_base q)) la) Epos) as Hone.
      eexists. split; [reflexivity|]. intros vs rr Has Hr. at_point (C81_model fsin fcos Hsin Hcos) V Hpt Has Hr G.
      destruct G as [(e & He & G1 & G2) G3]. exists e. split; [exact He|]. intros v i w j Hv Hw Hji.
      exists (at_pos (b_hphi bf) i j), (map (fun h => at_pos h i j) (b_h bf)). split; [apply Hone|]. split; [|split; [rewrite map_length; exact Hlen|]].
      + destruct (p_affine (@std_properties F NF e)); [unfold at_pos; rewrite (G1 eq_refl); reflexivity|exact (G2 eq_refl v i w j Hv Hw Hji)].
      + intros t cn Ht. destruct (G3 t cn Ht) as (Hin & d & h & Hd & Eh & Hs2). split; [exact Hin|]. exists d, (at_pos h i j).
        split; [exact Hd|]. split; [rewrite nth_error_map, Eh; reflexivity|]. exact (Hs2 v i w j Hv Hw Hji).
  Qed.
End Rounded.

(** *** Both theorems apply to
      minimise x*x   subject to   x + y == 1, x*y == 2
    and five requests at (2, 3), with a factor of 10 for the objective and multipliers 7 and 5. *)
#[local] Existing Instance NumF0.
Definition c80_calls : list (cb F) :=
  [EvalF 2 (Some [flit 2; flit 3]) 1 (Some [flit 99]); EvalGradF 2 (Some [flit 2; flit 3]) 0 (Some [flit 99; flit 99]);
   EvalG 2 (Some [flit 2; flit 3]) 0 2 (Some [flit 99; flit 99]);
   EvalJacG 2 (Some [flit 2; flit 3]) 0 2 4 None None (Some [flit 99; flit 99; flit 99; flit 99]);
   EvalH 2 (Some [flit 2; flit 3]) 0 (flit 10) 2 (Some [flit 7; flit 5]) 1 2 None None (Some [flit 99; flit 99])].
Example C80_example : exists (st : mstate F) m sp k' q p' rs,
  @hist F NumF0 any_op st /\ In m (st_models st) /\ @std_problem F NumF0 ord_id m (st_k st) = Ok (sp, k') /\ for_ipopt (sp_prob sp) = Some q /\
  small (m_nx (nlp_base q)) /\ small (m_na (nlp_base q) + m_nf (nlp_base q)) /\ class_of (sp_prob sp) = ClNlp /\
  Forall (well_called (nlp_base q)) c80_calls /\ honours None c80_calls /\
  @run_calls F NumF0 q c80_calls = Ok (p', rs) /\
  map (fun r => rp_out r) rs = [Some [flit 4]; Some [flit 4; flit 0]; Some [flit 4; flit 4]; Some [flit 1; flit 1; flit 3; flit 2]; Some [flit 20; flit 5]] /\
  jac_rows (nlp_base q) = [0; 0; 1; 1]%Z /\ jac_cols (nlp_base q) = [0; 1; 0; 1]%Z /\
  hess_rows (nlp_base q) = [0; 1]%Z /\ hess_cols (nlp_base q) = [0; 0]%Z.
Proof.
  assert (C : match @mrun F NumF0 ord_id c58_prog mstart with
              | Some st => match st_models st with
                | [m] => match @std_problem F NumF0 ord_id m (st_k st) with
                  | Ok (sp, _) => match sp_prob sp with
                    | PNlp q => match run_calls q c80_calls with
                       | Ok (_, rs) =>
                         map (fun r => rp_out r) rs = [Some [flit 4]; Some [flit 4; flit 0]; Some [flit 4; flit 4]; Some [flit 1; flit 1; flit 3; flit 2]; Some [flit 20; flit 5]] /\
                         (jac_rows (nlp_base q), jac_cols (nlp_base q), hess_rows (nlp_base q), hess_cols (nlp_base q)) = ([0; 0; 1; 1], [0; 1; 0; 1], [0; 1], [0; 0])%Z /\
                         (m_nx (nlp_base q), m_na (nlp_base q), m_nf (nlp_base q), nnzj (nlp_base q), nnzh (nlp_base q)) = (2, 1, 1, 4, 2)%nat
                       | _ => False end
                    | _ => False end
                  | _ => False end
                | _ => False end
              | None => False end) by (vm_compute; repeat split).
  destruct (@mrun F NumF0 ord_id c58_prog mstart) as [st|] eqn:E; [|destruct C].
  destruct (st_models st) as [|m [|]] eqn:Em; try (destruct C; fail).
  destruct (@std_problem F NumF0 ord_id m (st_k st)) as [[sp k']|] eqn:Es; [|destruct C].
  destruct (sp_prob sp) as [| | |q] eqn:Ep; try (destruct C; fail).
  destruct (run_calls q c80_calls) as [[p' rs]|] eqn:Er; [|destruct C].
  destruct C as (C0 & C1 & C2). injection C1 as C11 C12 C13 C14. injection C2 as C21 C22 C23 C24 C25.
  exists st, m, sp, k', q, p', rs. rewrite Em, Ep.
  split; [eapply (@mrun_hist F NumF0 ord_id c58_prog mstart); [constructor|exact E]|].
  split; [left; reflexivity|]. split; [exact Es|]. split; [reflexivity|].
  split; [unfold small; rewrite C21; lia|]. split; [unfold small; rewrite C22, C23; lia|]. split; [reflexivity|].
  split.
  { unfold c80_calls. repeat (apply Forall_cons; [cbn [well_called]; unfold point_ok, memory; rewrite ?C21, ?C22, ?C23, ?C24, ?C25|]); [..|apply Forall_nil];
      repeat match goal with |- _ /\ _ => split | |- _ = _ => reflexivity | |- exists _, _ => eexists | |- _ \/ _ => right end. }
  split; [cbn; repeat (split; [first [right; reflexivity|left; reflexivity]|]); exact Logic.I|].
  split; [exact Er|]. split; [exact C0|]. rewrite C11, C12, C13, C14. repeat split.
Qed.
