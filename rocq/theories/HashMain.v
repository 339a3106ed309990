(** The problems built by two runs that see different hash orders. *)
From Verif Require Import Base Num Node NodeInd NodeDiff NodeStd Constraint Matrix Problem ModelStd Model
     ExprSpec World Fresh MapProofs StdPropProofs GradProofs OccProofs Sim ConstrProofs PartsProofs
     MatSpec MatrixProofs ProblemProofs BuildProofs BuildMain ModelSpec PointProofs EvalRun
     Api ApiProofs ModelApi StdMain HistProofs StdFacts Properties_Std Properties_Feas HashSpec HashProofs.
From Coq Require Import Sorted.

Lemma nth_map_error {A B} (f : A -> B) l i a : nth_error l i = Some a -> nth_error (map f l) i = Some (f a).
Proof. intros E. rewrite nth_error_map, E. reflexivity. Qed.

Section Sorted.
  Context {T : Type}.
  Lemma string_leb_antisym : forall s t, String.leb s t = true -> String.leb t s = true -> s = t.
  Proof.
    induction s as [|a s IH]; intros [|b t]; try (cbn; congruence); auto.
    rewrite !string_leb_cons. intros H1 H2.
    destruct (Ascii.compare a b) eqn:E1; [apply ascii_compare_eq in E1; subst| |discriminate].
    - rewrite ascii_compare_refl in H2. f_equal. auto.
    - exfalso. destruct (Ascii.compare b a) eqn:E2; [apply ascii_compare_eq in E2; subst; rewrite ascii_compare_refl in E1; discriminate| |discriminate].
      unfold Ascii.compare in *. rewrite N.compare_lt_iff in E1, E2. lia.
  Qed.
  (** A sorted list without repeated names is determined by its elements. *)
  Lemma sorted_unique (l : list (node T)) : forall l', StronglySorted name_le l -> StronglySorted name_le l' ->
    Permutation l l' -> NoDup (map name l) -> l = l'.
  Proof.
    induction l as [|a l IH]; intros l' H1 H2 HP HN.
    - apply Permutation_nil in HP. auto.
    - destruct l' as [|b l']; [apply Permutation_sym, Permutation_nil in HP; discriminate|].
      inversion H1 as [|? ? S1 F1]; inversion H2 as [|? ? S2 F2]; subst. rewrite Forall_forall in F1, F2.
      inversion HN as [|? ? Hna HN']; subst.
      assert (a = b) as ->.
      { assert (Ha : In a (b :: l')) by (eapply Permutation_in; [exact HP|cbn; auto]).
        assert (Hb : In b (a :: l)) by (eapply Permutation_in; [apply Permutation_sym; exact HP|cbn; auto]).
        destruct Ha as [->|Ha]; auto. destruct Hb as [->|Hb]; auto. exfalso.
        pose proof (string_leb_antisym _ _ (F1 b Hb) (F2 a Ha)) as En. apply Hna. rewrite En. apply in_map; auto. }
      f_equal. apply IH; auto. eapply Permutation_cons_inv; eauto.
  Qed.
  Lemma sorted_map_name (f : node T -> node T) l : (forall v, In v l -> name (f v) = name v) ->
    StronglySorted name_le l -> StronglySorted name_le (map f l).
  Proof.
    intros Hf HS. induction HS as [|a l HS IH Ha]; cbn; constructor.
    - apply IH. intros; apply Hf; cbn; auto.
    - rewrite Forall_map. rewrite Forall_forall in *. intros w Hw. unfold name_le.
      rewrite (Hf a), (Hf w) by (cbn; auto). apply Ha; auto.
  Qed.
End Sorted.

Section Main.
  Context {T : Type} `{Num T} (O1 O2 : HashOrd).
  Variables (nsq : bool) (k : nat) (S : node T -> Prop) (m : model T).
  Hypothesis HW : world nsq k S.
  Hypothesis Mi : model_in S m.
  Hypothesis Hnm : neqb (@nm1 T _) n0 = false.
  Variables (eo : node T) (ke : nat).
  Variables (k1 : nat) (S1 : node T -> Prop) (obj1 : std_comp T) (ko1 : nat) (ps1 : list (cstd T)) (ar1 jr1 : nat).
  Variables (k2 : nat) (S2 : node T -> Prop) (obj2 : std_comp T) (ko2 : nat) (ps2 : list (cstd T)) (ar2 jr2 : nat).
  Hypothesis R1 : @std_run T _ O1 nsq k S m k1 S1 eo ke obj1 ko1 ps1 ar1 jr1.
  Hypothesis R2 : @std_run T _ O2 nsq k S m k2 S2 eo ke obj2 ko2 ps2 ar2 jr2.

  Notation vars1 := (@problem_vars T O1 k1 obj1 (cat ps1)).
  Notation vars2 := (@problem_vars T O2 k2 obj2 (cat ps2)).

  Variable sl : list (node T * node T).
  Hypothesis Fsl : Forall (slack_pair ko1 k1 ko2 k2) sl.
  Hypothesis N1 : NoDup (map (fun ss => nid (fst ss)) sl).
  Hypothesis N2 : NoDup (map (fun ss => nid (snd ss)) sl).
  Hypothesis Hk : forall v, In v (prop_keys (cat ps1)) -> nid v < k \/ In v (map fst sl).
  Hypothesis Htw : forall tw, (forall v, nid v < k -> tw v = v) -> (forall a b, In (a, b) sl -> tw a = b) ->
    twins tw (cat ps1) (cat ps2).

  Definition tw (v : node T) : node T := match hget ptr_eq v sl with Some w => w | None => v end.
  Definition pi (i : nat) : nat := ix vars2 (tw (nth i vars1 (NConst 0 n0))).

  Lemma le_k : k <= ko1 /\ k <= ko2.
  Proof.
    pose proof (sr_le _ _ _ _ _ _ _ _ _ _ _ _ _ R1). pose proof (sr_le _ _ _ _ _ _ _ _ _ _ _ _ _ R2). lia.
  Qed.
  Lemma sl_pair a b : In (a, b) sl -> slack_pair ko1 k1 ko2 k2 (a, b).
  Proof. pose proof Fsl as F. rewrite Forall_forall in F. auto. Qed.
  Lemma tw_old v : nid v < k -> tw v = v.
  Proof.
    intros Hv. unfold tw. destruct (hget ptr_eq v sl) as [w|] eqn:E; [|reflexivity]. exfalso.
    apply hget_some_in in E as (a & Ha & Ep). apply ptr_eq_nid in Ep. destruct (sl_pair _ _ Ha) as (A & _).
    cbn in A. pose proof le_k. lia.
  Qed.
  Lemma sl_nodupk : nodupk ptr_eq (map fst sl).
  Proof.
    pose proof N1 as N. revert N. clear. induction sl as [|[a b] l IH]; cbn; auto. intros N. inversion N as [|? ? Hn N']; subst.
    split; auto. apply not_true_is_false. intros E. apply existsb_exists in E as (w & Hw & Ew). apply ptr_eq_nid in Ew.
    apply Hn. rewrite Ew. apply in_map_iff in Hw as (x & <- & Hx). apply (in_map (fun ss => nid (fst ss))). exact Hx.
  Qed.
  Lemma tw_sl a b : In (a, b) sl -> tw a = b.
  Proof. intros Hin. unfold tw. rewrite (pget_in a sl b sl_nodupk Hin). reflexivity. Qed.
  Lemma TW : twins tw (cat ps1) (cat ps2).
  Proof. apply Htw; [exact tw_old|exact tw_sl]. Qed.

  Lemma eo_old v : occurs v eo -> S v /\ nid v < k.
  Proof.
    intros Hv. assert (Sv : S v).
    { apply (obj_exp_occurs v _ _ _ _ Hnm (sr_obj _ _ _ _ _ _ _ _ _ _ _ _ _ R1)) in Hv.
      pose proof (mi_obj _ _ Mi) as Ho. destruct (md_objective m); [| |destruct Hv];
        destruct Hv as [_ Hv]; exact (world_sub nsq k S _ _ HW Ho Hv). }
    split; [exact Sv|]. exact (w_lt _ _ _ HW v Sv).
  Qed.
  Lemma vars1_cases v : In v vars1 -> nid v < k \/ exists w, In (v, w) sl.
  Proof.
    intros Hv. apply (run_vars_in _ _ _ _ _ _ _ _ _ _ _ _ _ v R1) in Hv as [Hv|Hv].
    - left. apply eo_old; auto.
    - destruct (Hk v Hv) as [Hv'|Hv']; auto. right. apply in_map_iff in Hv' as ([a b] & E & Hin). cbn in E; subst. eauto.
  Qed.
  Lemma tw_kind v : In v vars1 -> name (tw v) = name v /\ is_integer (tw v) = is_integer v.
  Proof.
    intros Hv. destruct (vars1_cases v Hv) as [Ho|[w Hw]].
    - rewrite (tw_old v Ho). auto.
    - rewrite (tw_sl _ _ Hw). destruct (sl_pair _ _ Hw) as (_ & _ & nm & A & B). cbn in A, B. rewrite A, B. auto.
  Qed.
  Lemma tw_inj v w : In v vars1 -> In w vars1 -> tw v = tw w -> v = w.
  Proof.
    intros Hv Hw E. pose proof le_k as [L1 L2].
    destruct (vars1_cases v Hv) as [Ho|[v' Hv']]; destruct (vars1_cases w Hw) as [Ho'|[w' Hw']].
    - rewrite (tw_old v Ho), (tw_old w Ho') in E. exact E.
    - exfalso. rewrite (tw_old v Ho), (tw_sl _ _ Hw') in E. destruct (sl_pair _ _ Hw') as (_ & A & _). cbn in A. subst. lia.
    - exfalso. rewrite (tw_old w Ho'), (tw_sl _ _ Hv') in E. destruct (sl_pair _ _ Hv') as (_ & A & _). cbn in A. subst. lia.
    - rewrite (tw_sl _ _ Hv'), (tw_sl _ _ Hw') in E. subst w'. pose proof N2 as N. revert N Hv' Hw'. clear.
      induction sl as [|[a b] l IH]; cbn; [tauto|]. intros N. inversion N as [|? ? Hn N']; subst.
      intros [A|A] [B|B].
      + congruence.
      + injection A as -> ->. exfalso. apply Hn. apply (in_map (fun ss => nid (snd ss)) _ _ B).
      + injection B as -> ->. exfalso. apply Hn. apply (in_map (fun ss => nid (snd ss)) _ _ A).
      + auto.
  Qed.
  Lemma tw_in v : In v vars1 -> In (tw v) vars2.
  Proof.
    intros Hv. apply (run_vars_in _ _ _ _ _ _ _ _ _ _ _ _ _ _ R2).
    apply (run_vars_in _ _ _ _ _ _ _ _ _ _ _ _ _ v R1) in Hv as [Hv|Hv].
    - left. rewrite tw_old by (apply eo_old; auto). exact Hv.
    - right. rewrite (tn_keys _ _ _ TW). apply in_map; auto.
  Qed.
  Lemma tw_onto w : In w vars2 -> exists v, In v vars1 /\ tw v = w.
  Proof.
    intros Hw. apply (run_vars_in _ _ _ _ _ _ _ _ _ _ _ _ _ w R2) in Hw as [Hw|Hw].
    - exists w. split; [apply (run_vars_in _ _ _ _ _ _ _ _ _ _ _ _ _ _ R1); auto|]. apply tw_old, eo_old; auto.
    - rewrite (tn_keys _ _ _ TW) in Hw. apply in_map_iff in Hw as (v & E & Hv). exists v. split; auto.
      apply (run_vars_in _ _ _ _ _ _ _ _ _ _ _ _ _ _ R1); auto.
  Qed.
  Lemma nd1 : nodupk ptr_eq vars1. Proof. exact (run_vars_nodup _ _ _ _ _ _ _ _ _ _ _ _ _ R1). Qed.
  Lemma nd2 : nodupk ptr_eq vars2. Proof. exact (run_vars_nodup _ _ _ _ _ _ _ _ _ _ _ _ _ R2). Qed.
  Lemma tw_perm : Permutation (map tw vars1) vars2.
  Proof.
    apply NoDup_Permutation.
    - pose proof (nodupk_NoDup ptr_eq ptr_eq_refl _ nd1) as N. revert N. generalize tw_inj.
      induction vars1 as [|a l IH]; intros Hi N; cbn; constructor; inversion N; subst.
      + intros Hin. apply in_map_iff in Hin as (b & E & Hb). apply Hi in E; cbn; auto. subst. auto.
      + apply IH; auto. intros; apply Hi; cbn; auto.
    - exact (nodupk_NoDup ptr_eq ptr_eq_refl _ nd2).
    - intros w. split.
      + intros Hw. apply in_map_iff in Hw as (v & <- & Hv). apply tw_in; auto.
      + intros Hw. destruct (tw_onto w Hw) as (v & Hv & <-). apply in_map; auto.
  Qed.
  Lemma vars_len2 : length vars2 = length vars1.
  Proof. rewrite <- (Permutation_length tw_perm), map_length. reflexivity. Qed.

  Lemma pi_at i v : nth_error vars1 i = Some v -> pi i = ix vars2 (tw v).
  Proof. intros Hi. unfold pi. rewrite (nth_error_nth _ _ _ Hi). reflexivity. Qed.
  Lemma pi_nth i v : nth_error vars1 i = Some v -> nth_error vars2 (pi i) = Some (tw v).
  Proof.
    intros Hi. rewrite (pi_at i v Hi). apply (ix_nth vars2 nd2). apply tw_in. eapply nth_error_In; eauto.
  Qed.
  Lemma at_1 i : i < length vars1 -> exists v, nth_error vars1 i = Some v.
  Proof. intros Hi. destruct (nth_error vars1 i) eqn:E; eauto. apply nth_error_None in E. lia. Qed.
  Lemma pi_inj i j : i < length vars1 -> j < length vars1 -> pi i = pi j -> i = j.
  Proof.
    intros Hi Hj E. destruct (at_1 i Hi) as [v Hv]. destruct (at_1 j Hj) as [w Hw].
    pose proof (pi_nth i v Hv) as A. pose proof (pi_nth j w Hw) as B. rewrite E in A. rewrite A in B. injection B as B.
    apply tw_inj in B; [|eapply nth_error_In; eauto|eapply nth_error_In; eauto]. subst w.
    exact (nodup_pos vars1 nd1 _ _ _ _ Hv Hw (ptr_eq_refl v)).
  Qed.

  (** Vectors indexed by the variables. *)
  Lemma vec_at {A} (f g : node T -> A) i :
    (forall v, In v vars1 -> g (tw v) = f v) -> i < length vars1 ->
    nth_error (map g vars2) (pi i) = nth_error (map f vars1) i.
  Proof.
    intros Hf Hi. destruct (at_1 i Hi) as [v Hv]. rewrite (nth_map_error f _ _ _ Hv), (nth_map_error g _ _ _ (pi_nth i v Hv)).
    f_equal. apply Hf. eapply nth_error_In; eauto.
  Qed.
  Lemma in1_eq v w : In v vars1 -> In w vars1 -> ptr_eq v w = true -> v = w.
  Proof.
    intros Hv Hw E. apply (world_ptr_eq nsq k1 S1 v w (sr_world _ _ _ _ _ _ _ _ _ _ _ _ _ R1)); auto;
      [apply (run_vars_world _ _ _ _ _ _ _ _ _ _ _ _ _ v R1 Hv)|apply (run_vars_world _ _ _ _ _ _ _ _ _ _ _ _ _ w R1 Hw)].
  Qed.
  Lemma in2_eq v w : In v vars2 -> In w vars2 -> ptr_eq v w = true -> v = w.
  Proof.
    intros Hv Hw E. apply (world_ptr_eq nsq k2 S2 v w (sr_world _ _ _ _ _ _ _ _ _ _ _ _ _ R2)); auto;
      [apply (run_vars_world _ _ _ _ _ _ _ _ _ _ _ _ _ v R2 Hv)|apply (run_vars_world _ _ _ _ _ _ _ _ _ _ _ _ _ w R2 Hw)].
  Qed.
  Lemma tw_ptr v w : In v vars1 -> In w vars1 -> ptr_eq (tw v) (tw w) = ptr_eq v w.
  Proof.
    intros Hv Hw. destruct (ptr_eq v w) eqn:E.
    - rewrite (in1_eq v w Hv Hw E). apply ptr_eq_refl.
    - destruct (ptr_eq (tw v) (tw w)) eqn:E'; [|reflexivity].
      apply in2_eq in E'; [|apply tw_in; auto|apply tw_in; auto]. apply tw_inj in E'; auto. subst. rewrite ptr_eq_refl in E. discriminate.
  Qed.
  Lemma key1 v : In v (prop_keys (cat ps1)) -> In v vars1.
  Proof. intros Hv. apply (run_vars_in _ _ _ _ _ _ _ _ _ _ _ _ _ _ R1); auto. Qed.
  Lemma bfold_tw better v es st : In v vars1 -> Forall (fun e => In (fst (fst e)) (prop_keys (cat ps1))) es ->
    bfold better (tw v) (map (fun e => (tw (fst (fst e)), snd (fst e), snd e)) es) st = bfold better v es st.
  Proof.
    intros Hv HF. revert st. unfold bfold. induction HF as [|e es He HF IH]; intros st; [reflexivity|].
    cbn [map fold_left fst snd]. rewrite (tw_ptr v _ Hv (key1 _ He)). apply IH.
  Qed.
  (** Maps with old keys. *)
  Lemma lookup_tw (l : list (node T * T)) v : In v vars1 -> Forall (fun kv => nid (fst kv) < k) l ->
    lookup (fun _ => n0) l (tw v) = lookup (fun _ => n0) l v.
  Proof.
    intros Hv HF. pose proof le_k as [L1 L2]. destruct (vars1_cases v Hv) as [Ho|[w Hw]]; [rewrite (tw_old v Ho); reflexivity|].
    rewrite (tw_sl _ _ Hw). destruct (sl_pair _ _ Hw) as (A & B & _). cbn in A, B. rewrite Forall_forall in HF.
    assert (G : forall u, k <= nid u -> hget ptr_eq u l = None).
    { intros u Hu. destruct (hget ptr_eq u l) eqn:E; [|reflexivity]. exfalso.
      apply hget_some_in in E as (a & Ha & Ep). apply ptr_eq_nid in Ep. specialize (HF _ Ha). cbn in HF. lia. }
    unfold lookup. rewrite (G v), (G w) by lia. reflexivity.
  Qed.

  Lemma prop_same : sc_prop obj2 = sc_prop obj1 /\ sc_prop obj1 = std_properties eo /\ sc_phi obj1 = eo /\ sc_phi obj2 = eo.
  Proof.
    pose proof (std_components_ok _ _ _ _ (sr_comp _ _ _ _ _ _ _ _ _ _ _ _ _ R1)) as (_ & A & B & _).
    pose proof (std_components_ok _ _ _ _ (sr_comp _ _ _ _ _ _ _ _ _ _ _ _ _ R2)) as (_ & A' & B' & _).
    rewrite B, B'. auto.
  Qed.
  Lemma f_len : length (cs_f (cat ps2)) = length (cs_f (cat ps1)).
  Proof. symmetry. pose proof (tn_f _ _ _ TW) as F. induction F; cbn; auto. Qed.
  Lemma linear_same : p_linear obj2 (cat ps2) = p_linear obj1 (cat ps1).
  Proof. unfold p_linear. rewrite (proj1 prop_same), f_len. reflexivity. Qed.
  Lemma existsb_map_ {A B} (f : B -> bool) (g : A -> B) l : existsb f (map g l) = existsb (fun a => f (g a)) l.
  Proof. induction l; cbn; congruence. Qed.
  Lemma no_int_same : @no_int T O2 k2 obj2 (cat ps2) = @no_int T O1 k1 obj1 (cat ps1).
  Proof.
    unfold no_int. f_equal. rewrite <- (existsb_perm is_integer _ _ tw_perm), existsb_map_. generalize tw_kind.
    induction vars1 as [|a l IH]; intros Hi; cbn; [reflexivity|]. rewrite (proj2 (Hi a (or_introl eq_refl))), IH; auto.
    intros; apply Hi; cbn; auto.
  Qed.

  Lemma entries_mk {A} r c (l : list (nat * node T * A)) (vars : list (node T)) (D : list T) : 
    entries (mk_coo r c (map (fun e => fst (fst e)) l) (map (fun e => ix vars (snd (fst e))) l) D) =
    combine (map (fun e => (fst (fst e), ix vars (snd (fst e)))) l) D.
  Proof.
    unfold entries. cbn. f_equal. induction l as [|e l IH]; cbn; auto. rewrite IH. reflexivity.
  Qed.
  Lemma combine_map2 {A B C} (f : A -> B) (g : A -> C) l : combine (map f l) (map g l) = map (fun a => (f a, g a)) l.
  Proof. induction l; cbn; congruence. Qed.
  Lemma combine_rep {A B} (f : A -> B) (x : T) l : combine (map f l) (repeat x (length l)) = map (fun a => (f a, x)) l.
  Proof. induction l; cbn; congruence. Qed.
  Lemma pi_ix v : In v vars1 -> pi (ix vars1 v) = ix vars2 (tw v).
  Proof. intros Hv. apply pi_at. apply (ix_nth vars1 nd1); auto. Qed.

  (** The points of the two problems. *)
  Lemma at_points x1 x2 v : length x1 = length vars1 -> renumbered pi x1 x2 -> In v vars1 ->
    evaluate (point_vals vars1 x1) v = evaluate (point_vals vars2 x2) (tw v).
  Proof.
    intros L [_ Hx] Hv.
    assert (F1 : Forall (fun v => is_var v = true) vars1).
    { apply Forall_forall. intros u Hu. apply (run_vars_world _ _ _ _ _ _ _ _ _ _ _ _ _ u R1 Hu). }
    assert (F2 : Forall (fun v => is_var v = true) vars2).
    { apply Forall_forall. intros u Hu. apply (run_vars_world _ _ _ _ _ _ _ _ _ _ _ _ _ u R2 Hu). }
    rewrite (point_eval_ix vars1 nd1 F1 x1 v Hv), (point_eval_ix vars2 nd2 F2 x2 _ (tw_in v Hv)), <- (pi_ix v Hv).
    pose proof (ix_lt vars1 nd1 v Hv) as Hlt. assert (Hi : ix vars1 v < length x1) by lia. specialize (Hx _ Hi).
    destruct (nth_error x1 (ix vars1 v)) as [y|] eqn:E; [|apply nth_error_None in E; lia].
    rewrite (nth_error_nth _ _ _ E), (nth_error_nth _ _ _ Hx). reflexivity.
  Qed.

  Lemma same_up_to_main uc1 lc1 uc2 lc2 :
    (forall i v, nth_error vars1 i = Some v ->
       hget Nat.eqb i uc1 = snd (bfold (fun val cur => nleb val cur) v (cs_u (cat ps1)) (INF, None))) ->
    (forall i v, nth_error vars1 i = Some v ->
       hget Nat.eqb i lc1 = snd (bfold (fun val cur => nleb cur val) v (cs_l (cat ps1)) (nneg INF, None))) ->
    (forall i v, nth_error vars2 i = Some v ->
       hget Nat.eqb i uc2 = snd (bfold (fun val cur => nleb val cur) v (cs_u (cat ps2)) (INF, None))) ->
    (forall i v, nth_error vars2 i = Some v ->
       hget Nat.eqb i lc2 = snd (bfold (fun val cur => nleb cur val) v (cs_l (cat ps2)) (nneg INF, None))) ->
    same_up_to k
      (mk_std_prob (@p_problem T _ O1 k1 (md_init m) obj1 (cat ps1)) (v2i_of vars1) (enum (cs_ca (cat ps1))) (enum (cs_cj (cat ps1))) uc1 lc1)
      (mk_std_prob (@p_problem T _ O2 k2 (md_init m) obj2 (cat ps2)) (v2i_of vars2) (enum (cs_ca (cat ps2))) (enum (cs_cj (cat ps2))) uc2 lc2)
      tw pi.
  Proof.
    intros U1 L1 U2 L2.
    destruct (@base_shape T _ O1 k1 (md_init m) obj1 (cat ps1)) as (A1 & A2 & A3 & A4 & A5 & A6 & A7).
    destruct (@base_shape T _ O2 k2 (md_init m) obj2 (cat ps2)) as (B1 & B2 & B3 & B4 & B5 & B6 & B7).
    destruct (@base_bufs T _ O1 k1 (md_init m) obj1 (cat ps1)) as (Eb1 & _).
    destruct (@base_bufs T _ O2 k2 (md_init m) obj2 (cat ps2)) as (Eb2 & _).
    destruct (sr_in _ _ _ _ _ _ _ _ _ _ _ _ _ R1) as [Q1 Q2 Q3 Q4 Q5 Q6 Q7].
    pose proof TW as [W1 W2 W3 W4 W5 W6 W7 W8 W9].
    assert (Hobj : Forall (fun kv => nid (fst kv) < k) (p_a (sc_prop obj1))).
    { rewrite (proj1 (proj2 prop_same)). apply Forall_forall. intros kv Hkv. apply eo_old, keys_occur, in_map; auto. }
    assert (Hinit : Forall (fun kv => nid (fst kv) < k) (md_init m)).
    { eapply Forall_impl; [|exact (mi_init_in _ _ Mi)]. cbn. intros kv Sk. exact (w_lt _ _ _ HW _ Sk). }
    constructor; cbn [sp_prob sp_var2index sp_acons sp_jcons sp_ucons sp_lcons].
    - exact tw_old.
    - intros v i Hv. apply enum_in in Hv. split; [apply enum_in; apply pi_nth; exact Hv|].
      apply tw_kind. eapply nth_error_In; eauto.
    - rewrite !v2i_len. apply vars_len2.
    - rewrite v2i_len. exact pi_inj.
    - unfold p_problem. rewrite linear_same, no_int_same.
      destruct (p_linear obj1 (cat ps1)), (@no_int T O1 k1 obj1 (cat ps1)); reflexivity.
    - rewrite v2i_len, A3, B3. intros i Hi. unfold p_lvec. apply vec_at; auto. intros v Hv. rewrite W7, bfold_tw; auto.
    - rewrite v2i_len, A4, B4. intros i Hi. unfold p_uvec. apply vec_at; auto. intros v Hv. rewrite W6, bfold_tw; auto.
    - rewrite v2i_len, A5, B5. intros i Hi. apply vec_at; auto. intros v Hv. apply tw_kind; auto.
    - rewrite A6, B6. do 2 eexists. split; [reflexivity|]. split; [reflexivity|]. rewrite v2i_len. intros i Hi.
      unfold p_x0. apply vec_at; auto. intros v Hv. apply lookup_tw; auto.
    - rewrite v2i_len. unfold p_problem. rewrite linear_same, no_int_same.
      assert (G : forall i, i < length vars1 -> nth_error (@p_cvec T _ O2 k2 obj2 (cat ps2)) (pi i) = nth_error (@p_cvec T _ O1 k1 obj1 (cat ps1)) i).
      { intros i Hi. unfold p_cvec. rewrite (proj1 prop_same). apply vec_at; auto. intros v Hv. apply lookup_tw; auto. }
      destruct (p_linear obj1 (cat ps1)), (@no_int T O1 k1 obj1 (cat ps1)); cbn [costs lp_milp milp_c]; auto.
    - rewrite A1, B1. unfold p_amat. rewrite !entries_mk, !combine_map2, map_map. cbn [fst snd].
      eapply perm_trans; [|apply Permutation_map; exact W4]. rewrite map_map. cbn [fst snd].
      erewrite map_ext_in; [apply Permutation_refl|]. intros e He. cbn. rewrite Forall_forall in Q2.
      rewrite (pi_ix _ (key1 _ (Q2 e He))). reflexivity.
    - rewrite A2, B2. exact W3.
    - rewrite Eb1, Eb2, linear_same. destruct (p_linear obj1 (cat ps1)); cbn; [reflexivity|]. rewrite !repeat_length. apply f_len.
    - rewrite Eb1, Eb2, linear_same. destruct (p_linear obj1 (cat ps1)); [apply Permutation_refl|]. unfold nl_bufs. cbn [b_j].
      unfold p_jmat. rewrite !entries_mk, !combine_rep, !map_map. cbn [fst snd].
      assert (P : Permutation (map (fun x : nat * node T => (fst x, ix vars2 (snd x))) (map (fun e => (fst (fst e), tw (snd (fst e)))) (cs_j (cat ps1))))
                              (map (fun x : nat * node T => (fst x, ix vars2 (snd x))) (map fst (cs_j (cat ps2))))) by (apply Permutation_map; exact W5).
      rewrite !map_map in P. cbn [fst snd] in P. eapply perm_trans; [|exact P].
      erewrite map_ext_in; [apply Permutation_refl|]. intros e He. cbn. rewrite Forall_forall in Q4.
      rewrite (pi_ix _ (key1 _ (proj1 (Q4 e He)))). reflexivity.
    - rewrite W1. reflexivity.
    - rewrite W2. reflexivity.
    - rewrite v2i_len. intros i Hi. destruct (at_1 i Hi) as [v Hv]. rewrite (U2 _ _ (pi_nth i v Hv)), (U1 _ _ Hv), W6, bfold_tw; auto.
      eapply nth_error_In; eauto.
    - rewrite v2i_len. intros i Hi. destruct (at_1 i Hi) as [v Hv]. rewrite (L2 _ _ (pi_nth i v Hv)), (L1 _ _ Hv), W7, bfold_tw; auto.
      eapply nth_error_In; eauto.
  Qed.

  (** Distinct names: the same numbering. *)
  Lemma pi_id : NoDup (map name vars1) -> map tw vars1 = vars2 /\ forall i, i < length vars1 -> pi i = i.
  Proof.
    intros HN. assert (E : map tw vars1 = vars2).
    { apply sorted_unique.
      - apply sorted_map_name; [intros; apply tw_kind; auto|apply sort_vars_sorted].
      - apply sort_vars_sorted.
      - exact tw_perm.
      - rewrite map_map. erewrite map_ext_in; [exact HN|]. intros v Hv. apply tw_kind; auto. }
    split; [exact E|]. intros i Hi. destruct (at_1 i Hi) as [v Hv]. pose proof (pi_nth i v Hv) as A.
    pose proof (nth_map_error tw _ _ _ Hv) as B. rewrite E in B.
    exact (nodup_pos vars2 nd2 _ _ _ _ A B (ptr_eq_refl _)).
  Qed.

  (** The nonlinear functions and the objective take the same values. *)
  Lemma eval_same x1 x2 : length x1 = length vars1 -> renumbered pi x1 x2 ->
    map (evaluate (point_vals vars2 x2)) (cs_f (cat ps2)) = map (evaluate (point_vals vars1 x1)) (cs_f (cat ps1)) /\
    evaluate (point_vals vars2 x2) eo = evaluate (point_vals vars1 x1) eo.
  Proof.
    intros L Hx. split.
    - pose proof (tn_f _ _ _ TW) as F. induction F as [|f1 f2 l1 l2 Hf F IH]; cbn; [reflexivity|]. f_equal; auto.
      symmetry. apply Hf. intros v Hv. apply at_points; auto. apply key1; auto.
    - symmetry. apply (sim_evaluate_gen e0); [|apply sim_refl]. intros v w Ov Ow Evw.
      rewrite (sim_var v w (proj1 Ov) Evw). rewrite (at_points x1 x2 v L Hx).
      + f_equal. apply tw_old, eo_old; auto.
      + apply (run_vars_in _ _ _ _ _ _ _ _ _ _ _ _ _ _ R1); auto.
  Qed.
End Main.
