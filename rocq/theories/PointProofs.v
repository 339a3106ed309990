(** Points of the standard problem and valuations of its variables. *)
From Verif Require Import Base Num Node NodeInd NodeDiff NodeStd Constraint Matrix Problem ModelStd
     ExprSpec MapProofs StdPropProofs EvalProofs GradProofs ConstrProofs PartsProofs ConstrSpec ConstrEquiv
     MatSpec MatrixProofs ProblemProofs BuildProofs BuildMain ModelSpec.
From Coq Require Import Reals Lra.

Lemma nth_error_ext_len {A} (d : A) (l l' : list A) :
  length l = length l' -> (forall i, i < length l -> nth i l d = nth i l' d) -> l = l'.
Proof.
  revert l'; induction l as [|a l IH]; intros [|b l'] Hl Hi; cbn in *; try discriminate; auto.
  f_equal; [apply (Hi 0); lia|]. apply IH; [lia|]. intros i Hlt. apply (Hi (S i)). lia.
Qed.

Section Points.
  Context {T : Type} `{Num T} `{HashOrd}.
  Variable vars : list (node T).
  Hypothesis Hnd : nodupk ptr_eq vars.
  Hypothesis Hvar : Forall (fun v => is_var v = true) vars.

  Definition point_vals (x : list T) : vals T :=
    map (fun vi => (fst vi, nth (snd vi) x n0)) (v2i_of vars).

  Lemma point_keys x : map fst (point_vals x) = vars.
  Proof. unfold point_vals. rewrite map_map. cbn. apply enum_keys. Qed.

  Lemma point_eval x i v : nth_error vars i = Some v -> evaluate (point_vals x) v = nth i x n0.
  Proof.
    intros Hi. assert (Hv : is_var v = true).
    { rewrite Forall_forall in Hvar. apply Hvar. eapply nth_error_In; eauto. }
    assert (G : hget ptr_eq v (point_vals x) = Some (nth i x n0)).
    { apply pget_in; [rewrite point_keys; auto|]. unfold point_vals. apply in_map_iff.
      exists (v, i). split; auto. apply enum_in; auto. }
    destruct v; try discriminate. cbn [evaluate]. rewrite G. reflexivity.
  Qed.
  Lemma point_eval_ix x v : In v vars -> evaluate (point_vals x) v = nth (ix vars v) x n0.
  Proof. intros Hv. apply point_eval. apply ix_nth; auto. Qed.

  Lemma nth_map_default {A B} (f : A -> B) l i a d : nth_error l i = Some a -> nth i (map f l) d = f a.
  Proof. revert i; induction l as [|b l IH]; intros [|i] E; cbn in *; try discriminate; [congruence|auto]. Qed.

  (** A valuation read off as a point. *)
  Lemma point_of_vals (vs : vals T) v : In v vars ->
    evaluate (point_vals (map (fun v => evaluate vs v) vars)) v = evaluate vs v.
  Proof.
    intros Hv. rewrite point_eval_ix by auto. apply nth_map_default. apply ix_nth; auto.
  Qed.

  (** The map the evaluation closure builds. *)
  Lemma eval_vals_ok x : length vars <= length x ->
    foldR (fun vs vi => rbind (vget x (snd vi)) (fun xv => Ok (hinsert_val vs (fst vi, xv)))) (v2i_of vars) [] =
    Ok (point_vals x).
  Proof.
    intros Hx. unfold point_vals.
    assert (G : forall l acc, (forall vi, In vi l -> snd vi < length x) ->
      nodupk ptr_eq (map fst acc ++ map fst l) ->
      foldR (fun vs vi => rbind (vget x (snd vi)) (fun xv => Ok (hinsert_val vs (fst vi, xv)))) l acc =
      Ok (acc ++ map (fun vi => (fst vi, nth (snd vi) x n0)) l)).
    { induction l as [|[v i] l IH]; intros acc Hl Hn; cbn [foldR map].
      - rewrite app_nil_r; auto.
      - cbn [fst snd]. unfold vget. assert (Hi : i < length x) by (apply (Hl (v, i)); cbn; auto).
        destruct (nth_error x i) as [xi|] eqn:Ei; [|apply nth_error_None in Ei; lia]. cbn [rbind].
        unfold hinsert_val. cbn [fst snd]. rewrite hinsert_new.
        + rewrite IH.
          * rewrite <- app_assoc. cbn. do 3 f_equal. rewrite (nth_error_nth _ _ _ Ei). reflexivity.
          * intros vi Hvi. apply Hl; cbn; auto.
          * rewrite map_app, <- app_assoc. exact Hn.
        + revert Hn. cbn [map fst]. clear. induction (map fst acc) as [|w a IH]; cbn; [reflexivity|].
          intros [H1 H2]. apply orb_false_iff. split; [|apply IH; auto].
          rewrite existsb_app in H1. apply orb_false_iff in H1 as [_ H1]. cbn in H1.
          apply orb_false_iff in H1 as [H1 _]. rewrite ptr_eq_sym. exact H1. }
    rewrite G; auto.
    - intros [v i] Hvi. cbn. apply enum_in in Hvi.
      assert (i < length vars) by (apply nth_error_Some; congruence). lia.
    - cbn. rewrite enum_keys. exact Hnd.
  Qed.

  Lemma zip_eval_full (vs : vals T) exps : forall dest,
    length dest = length exps -> zip_eval vs dest exps = map (evaluate vs) exps.
  Proof. induction exps as [|e exps IH]; intros [|d dest] E; cbn in *; try discriminate; auto. f_equal. auto. Qed.

  (** Any vector of the right length is a function of the variables. *)
  Lemma vec_of_vars {A} (l : list A) d : length l = length vars -> l = map (fun v => nth (ix vars v) l d) vars.
  Proof.
    intros Hl. apply nth_error_ext_len with (d := d); [rewrite map_length; auto|].
    intros i Hi. rewrite Hl in Hi. destruct (nth_error vars i) as [v|] eqn:E; [|apply nth_error_None in E; lia].
    rewrite (nth_map_default _ _ _ v); auto. rewrite (nth_ix vars Hnd v i E). reflexivity.
  Qed.

  (** What the evaluation closure writes, for buffers of the right size. *)
  Definition fits (bf : bufs T) (gphi : list (node T * node T)) (hphi f j : list (node T)) (h : list (list (node T))) : Prop :=
    length (b_gphi bf) = length vars /\ length (coo_data (b_hphi bf)) = length hphi /\
    length (b_f bf) = length f /\ length (coo_data (b_j bf)) = length j /\
    Forall2 (fun m hh => length (coo_data m) = length hh) (b_h bf) h.

  Definition written (x : list T) (bf : bufs T) phi (gphi : list (node T * node T)) hphi f j h : bufs T :=
    let vs := point_vals x in
    mk_bufs (evaluate vs phi)
            (map (lookup (fun v => nth (ix vars v) (b_gphi bf) n0)
                         (map (fun ge => (fst ge, evaluate vs (snd ge))) gphi)) vars)
            (with_data (b_hphi bf) (map (evaluate vs) hphi))
            (map (evaluate vs) f)
            (with_data (b_j bf) (map (evaluate vs) j))
            (map (fun mh => with_data (fst mh) (map (evaluate vs) (snd mh))) (combine (b_h bf) h)).

  Lemma model_eval_ok bf x phi gphi hphi f j h :
    nodupk ptr_eq (map fst gphi) -> Forall (fun ge => In (fst ge) vars) gphi ->
    length vars <= length x -> fits bf gphi hphi f j h ->
    model_eval (v2i_of vars) phi (map (fun ge => ix vars (fst ge)) gphi) (map snd gphi) hphi f j h bf x =
    Ok (written x bf phi gphi hphi f j h).
  Proof.
    intros Hn HF Hx (L1 & L2 & L3 & L4 & L5). unfold model_eval.
    rewrite eval_vals_ok by auto. cbn [rbind].
    assert (G : forall l (g0 : node T -> T), nodupk ptr_eq (map fst l) -> Forall (fun ge => In (fst ge) vars) l ->
      foldR (fun g ie => vset g (fst ie) (evaluate (point_vals x) (snd ie)))
            (combine (map (fun ge => ix vars (fst ge)) l) (map snd l)) (map g0 vars) =
      Ok (map (lookup g0 (map (fun ge : node T * node T => (fst ge, evaluate (point_vals x) (snd ge))) l)) vars)).
    { induction l as [|[w e] l IH]; intros g0 Hnl HFl; cbn [map combine foldR]; [reflexivity|].
      inversion HFl as [|? ? Hw HF']; subst. cbn [fst snd] in *.
      rewrite (vset_var vars Hnd g0 w w (ix vars w) _ (ix_nth vars Hnd w Hw) (ptr_eq_refl w)). cbn [rbind].
      rewrite IH; [|apply Hnl|auto]. f_equal. apply map_ext. intros v. apply lookup_cons.
      cbn. rewrite map_map. exact Hnl. }
    rewrite (vec_of_vars (b_gphi bf) n0) by auto. rewrite G by auto. cbn [rbind].
    unfold written. rewrite !zip_eval_full by auto.
    do 2 f_equal. clear -L5. induction L5 as [|m hh ms hs Hm L5 IH]; [reflexivity|]. cbn [combine map fst snd].
    f_equal; auto. rewrite zip_eval_full; auto.
  Qed.
End Points.

(** ** The problem [std_problem] builds *)
Section Base.
  Context {T : Type} `{Num T} `{HashOrd}.
  Variables (t : nat) (init : list (node T * T)) (obj : std_comp T) (cs : cstd T).
  Let vars := problem_vars t obj cs.

  Lemma base_shape :
    let b := base_of (p_problem t init obj cs) in
    m_a b = p_amat t obj cs /\ m_b b = cs_b cs /\ m_l b = p_lvec t obj cs /\ m_u b = p_uvec t obj cs /\
    m_p b = map is_integer vars /\ m_x0 b = Some (p_x0 t init obj cs) /\ m_nx b = length vars.
  Proof.
    unfold p_problem. destruct (p_linear obj cs), (no_int t obj cs) eqn:E; cbn;
      repeat split; auto; symmetry; exact (no_int_false t obj cs E).
  Qed.

  Definition lin_bufs : bufs T :=
    mk_bufs n0 (repeat n0 (length vars)) (coo_from_nnz (length vars) (length vars) 0) []
            (coo_from_nnz 0 (length vars) 0) [].
  Definition nl_bufs : bufs T :=
    mk_bufs n0 (repeat n0 (length vars)) (p_hphi t obj cs) (repeat n0 (length (cs_f cs)))
            (p_jmat t obj cs) (p_hs t obj cs).
  Lemma base_bufs :
    m_bufs (base_of (p_problem t init obj cs)) = (if p_linear obj cs then lin_bufs else nl_bufs) /\
    m_eval (base_of (p_problem t init obj cs)) =
      (if p_linear obj cs then linear_eval (p_cvec t obj cs) else p_ev t obj cs).
  Proof.
    unfold p_problem. destruct (p_linear obj cs), (no_int t obj cs) eqn:E; cbn; split; reflexivity.
  Qed.

  Lemma row_of_amat r :
    row_of r (entries (p_amat t obj cs)) = map (fun kv => (ix vars (fst kv), snd kv)) (lrow r (cs_a cs)).
  Proof.
    unfold entries, p_amat, row_of, lrow. cbn [coo_ri coo_ci coo_data].
    induction (cs_a cs) as [|[[r' v] c] l IH]; [reflexivity|]. cbn [map combine filter fst snd].
    destruct (r' =? r); cbn [map fst snd]; rewrite IH; reflexivity.
  Qed.
End Base.

Section PointsX.
  Context `{HashOrd}.
  Lemma row_dot_lin (vars : list nodeX) (x : list X) row :
    nodupk ptr_eq vars -> Forall (fun v => is_var v = true) vars -> Forall (fun kv => In (fst kv) vars) row ->
    row_dot (map (fun kv => (ix vars (fst kv), snd kv)) row) x = lin (point_vals vars x) row.
  Proof.
    intros Hn Hv HF. unfold row_dot, lin, xsum.
    assert (G : forall a : X, fold_left (fun acc e => madd acc (mmul (nth (fst e) x mzero) (snd e)))
                (map (fun kv => (ix vars (fst kv), snd kv)) row) a =
              fold_left (x2 Rplus) (map (fun kv => x2 Rmult (snd kv) (evaluate (point_vals vars x) (fst kv))) row) a).
    { induction HF as [|[v c] row Hin HF IH]; intros a; cbn [map fold_left fst snd]; [reflexivity|].
      rewrite IH. f_equal. change (@madd X _) with (x2 Rplus). change (@mmul X _) with (x2 Rmult). f_equal.
      rewrite point_eval_ix by auto. change (@mzero X _) with (@n0 X _).
      destruct (nth (ix vars v) x n0), c; cbn; try reflexivity. f_equal. apply Rmult_comm. }
    exact (G (Some 0%R)).
  Qed.

  Lemma xsum_change (vars : list nodeX) w (f g : nodeX -> X) :
    nodupk ptr_eq vars -> In w vars -> (forall v, ptr_eq v w = false -> f v = g v) -> g w = Some 0%R ->
    xsum (map f vars) = x2 Rplus (f w) (xsum (map g vars)).
  Proof.
    intros Hn Hw He Hg. induction vars as [|v vars IH]; [destruct Hw|]. cbn [map]. rewrite !xsum_cons.
    destruct Hn as [Hv Hn]. destruct Hw as [->|Hw].
    - rewrite Hg, xplus_0_l. f_equal. f_equal. apply map_ext_in. intros u Hu. apply He.
      apply not_true_is_false. intros E. assert (existsb (ptr_eq w) vars = true); [|congruence].
      apply existsb_exists. exists u. rewrite ptr_eq_sym. auto.
    - rewrite (IH Hn Hw). assert (Hvw : ptr_eq v w = false).
      { apply not_true_is_false. intros E. assert (existsb (ptr_eq v) vars = true); [|congruence].
        apply existsb_exists. eauto. }
      rewrite (He v Hvw). destruct (g v), (f w), (xsum (map g vars)); cbn; try reflexivity. f_equal. lra.
  Qed.
  Lemma xsum_zero {A} (l : list A) (f : A -> X) : (forall a, In a l -> f a = Some 0%R) -> xsum (map f l) = Some 0%R.
  Proof.
    induction l as [|a l IH]; intros Hf; [reflexivity|]. cbn [map]. rewrite xsum_cons, (Hf a (or_introl eq_refl)), (IH (fun b Hb => Hf b (or_intror Hb))).
    cbn. f_equal. lra.
  Qed.

  Lemma sum_lookup (vars : list nodeX) (val : nodeX -> R) a :
    nodupk ptr_eq vars -> nodupk ptr_eq (map fst a) -> Forall (fun kv => In (fst kv) vars) a ->
    xsum (map (fun v => x2 Rmult (lookup (fun _ => n0) a v) (Some (val v))) vars) =
    xsum (map (fun kv => x2 Rmult (snd kv) (Some (val (fst kv)))) a).
  Proof.
    intros Hn Hna HF. induction HF as [|[w c] a Hw HF IH].
    - cbn [map]. apply xsum_zero. intros v _. cbn. f_equal. lra.
    - cbn [map]. rewrite xsum_cons. cbn [fst snd] in *. rewrite <- IH by apply Hna.
      rewrite (xsum_change vars w _ (fun v => x2 Rmult (lookup (fun _ => n0) a v) (Some (val v))) Hn Hw).
      + f_equal. unfold lookup. cbn [hget]. rewrite ptr_eq_refl. reflexivity.
      + intros v Hv. unfold lookup. cbn [hget]. rewrite Hv. reflexivity.
      + unfold lookup. destruct Hna as [Hx _]. destruct (hget ptr_eq w a) as [y|] eqn:E.
        * exfalso. pose proof (proj2 (hget_none ptr_eq w a) Hx) as Hx'. congruence.
        * cbn. f_equal. lra.
  Qed.

  Lemma dot_val_lin (vars : list nodeX) a (xr : list R) :
    nodupk ptr_eq vars -> Forall (fun v => is_var v = true) vars ->
    nodupk ptr_eq (map fst a) -> Forall (fun kv => In (fst kv) vars) a -> length xr = length vars ->
    dot_val (map (lookup (fun _ => n0) a) vars) (pt xr) = lin (point_vals vars (pt xr)) a.
  Proof.
    intros Hn Hv Hna HF Hx. pose proof (sum_lookup vars (fun v => nth (ix vars v) xr 0%R) a Hn Hna HF) as G.
    assert (E1 : lin (point_vals vars (pt xr)) a = xsum (map (fun kv => x2 Rmult (snd kv) (Some (nth (ix vars (fst kv)) xr 0%R))) a)).
    { unfold lin. f_equal. apply map_ext_in. intros kv Hkv. f_equal. rewrite Forall_forall in HF.
      rewrite point_eval_ix by auto. unfold pt.
      destruct (nth_error xr (ix vars (fst kv))) as [r|] eqn:E.
      - rewrite (nth_map_default _ _ _ r) by auto. rewrite (nth_error_nth _ _ _ E). reflexivity.
      - apply nth_error_None in E. pose proof (ix_lt vars Hn _ (HF kv Hkv)). lia. }
    rewrite E1, <- G. clear E1 G. unfold dot_val, xsum. change (@n0 X _) with (Some 0%R) at 2.
    set (L := lookup (fun _ => n0) a).
    assert (Gen : forall (l : list nodeX) (ys : list R) acc, length ys = length l ->
              (forall i v, nth_error l i = Some v -> nth i ys 0%R = nth (ix vars v) xr 0%R) ->
              fold_left (fun acc p => nadd acc (nmul (fst p) (snd p))) (combine (map L l) (map Some ys)) acc =
              fold_left (x2 Rplus) (map (fun v => x2 Rmult (L v) (Some (nth (ix vars v) xr 0%R))) l) acc).
    { induction l as [|v l IH]; intros [|y ys] acc Hl Hi; try discriminate; [reflexivity|].
      cbn [map combine fold_left fst snd]. rewrite IH.
      - f_equal. rewrite <- (Hi 0%nat v eq_refl). reflexivity.
      - cbn in Hl. lia.
      - intros i u Hu. apply (Hi (S i) u Hu). }
    apply Gen; auto. intros i v Hi. rewrite (nth_ix vars Hn v i Hi). reflexivity.
  Qed.
End PointsX.
