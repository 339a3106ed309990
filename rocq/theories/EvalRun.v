(** Evaluating the problem [std_problem] builds: the buffers after a call of
    [evaluate] depend on the point only, whatever was called before. *)
From Verif Require Import Base Num Node NodeInd NodeDiff NodeStd Constraint Matrix Problem ModelStd
     ExprSpec MapProofs StdPropProofs EvalProofs GradProofs ConstrProofs PartsProofs ConstrSpec ConstrEquiv
     MatSpec MatrixProofs ProblemProofs BuildProofs BuildMain ModelSpec PointProofs.

Section EvalRun.
  Context {T : Type} `{Num T} `{HashOrd}.
  Variables (t : nat) (init : list (node T * T)) (obj : std_comp T) (cs : cstd T).
  Let vars := problem_vars t obj cs.
  Hypothesis Hnd : nodupk ptr_eq vars.
  Hypothesis Hg : nodupk ptr_eq (map fst (sc_gphi obj)).
  Hypothesis HgF : Forall (fun ge => In (fst ge) vars) (sc_gphi obj).
  Hypothesis Hh : length (cs_h cs) = length (cs_f cs).

  (** The buffers after evaluating at [x]. *)
  Definition bufs_at (x : list T) : bufs T :=
    if p_linear obj cs then
      mk_bufs (dot_val (p_cvec t obj cs) x) (p_cvec t obj cs) (coo_from_nnz (length vars) (length vars) 0) []
              (coo_from_nnz 0 (length vars) 0) []
    else
      let vs := point_vals vars x in
      mk_bufs (evaluate vs (sc_phi obj))
              (map (lookup (fun _ => n0) (map (fun ge => (fst ge, evaluate vs (snd ge))) (sc_gphi obj))) vars)
              (with_data (p_hphi t obj cs) (map (fun e => evaluate vs (snd e)) (sc_hphi obj)))
              (map (evaluate vs) (cs_f cs))
              (with_data (p_jmat t obj cs) (map (fun e => evaluate vs (snd e)) (cs_j cs)))
              (map (fun hs => with_data (hess_of vars (length vars) hs) (map (fun e => evaluate vs (snd e)) hs)) (cs_h cs)).

  Let base := base_of (p_problem t init obj cs).

  Lemma lookup_map_absent (l : list (node T * T)) d d' v :
    hget ptr_eq v l <> None -> lookup d l v = lookup d' l v.
  Proof. unfold lookup. destruct (hget ptr_eq v l); congruence. Qed.

  (** Evaluation from a state of the buffers with the right shape. *)
  Lemma nl_eval bf x :
    p_linear obj cs = false -> length vars <= length x ->
    length (b_gphi bf) = length vars ->
    (forall v, In v vars -> hget ptr_eq v (sc_gphi obj) = None -> nth (ix vars v) (b_gphi bf) n0 = n0) ->
    same_structure (p_hphi t obj cs) (b_hphi bf) -> length (b_f bf) = length (cs_f cs) ->
    same_structure (p_jmat t obj cs) (b_j bf) ->
    Forall2 same_structure (p_hs t obj cs) (b_h bf) ->
    p_ev t obj cs bf x = Ok (bufs_at x).
  Proof.
    intros Hl Hx Lg Hz (A1 & A2 & A3 & A4 & A5) Lf (B1 & B2 & B3 & B4 & B5) HH.
    unfold p_ev. fold vars. unfold bufs_at. rewrite Hl.
    rewrite (model_eval_ok vars Hnd bf x (sc_phi obj) (sc_gphi obj)); auto.
    - unfold written. do 2 f_equal.
      + apply map_ext_in. intros v Hv. unfold lookup.
        assert (Em : hget ptr_eq v (map (fun ge : node T * node T => (fst ge, evaluate (point_vals vars x) (snd ge))) (sc_gphi obj)) =
                option_map (evaluate (point_vals vars x)) (hget ptr_eq v (sc_gphi obj))).
        { clear. induction (sc_gphi obj) as [|[w e] l IH]; cbn; [reflexivity|]. destruct (ptr_eq v w); auto. }
        rewrite Em. destruct (hget ptr_eq v (sc_gphi obj)) eqn:E; cbn; [reflexivity|]. apply Hz; auto.
      + unfold with_data. rewrite A1, A2, A3, A4, map_map. reflexivity.
      + unfold with_data. rewrite B1, B2, B3, B4, map_map. reflexivity.
      + unfold p_hs in HH. revert HH. fold vars. generalize (b_h bf) as bh. generalize (cs_h cs) as hl. clear.
        induction hl as [|hs hl IH]; intros bh HH; inversion HH as [|? m ? ? (C1 & C2 & C3 & C4 & C5) HH']; subst; cbn [map combine]; [reflexivity|].
        rewrite IH by auto. f_equal. cbn [fst snd]. unfold with_data. rewrite C1, C2, C3, C4, map_map. reflexivity.
    - repeat split; auto.
      + rewrite A5, map_length. unfold p_hphi, hess_of. cbn. apply repeat_length.
      + rewrite B5, map_length. unfold p_jmat. cbn. apply repeat_length.
      + unfold p_hs in HH. revert HH. fold vars. generalize (b_h bf) as bh. generalize (cs_h cs) as hl. clear.
        induction hl as [|hs hl IH]; intros bh HH; inversion HH as [|? m ? ? (C1 & C2 & C3 & C4 & C5) HH']; subst; cbn [map]; constructor; auto.
        rewrite C5, map_length. unfold hess_of. cbn. apply repeat_length.
  Qed.

  Lemma same_structure_data (m : coo T) d : length d = length (coo_data m) -> same_structure m (with_data m d).
  Proof. intros E. repeat split. exact E. Qed.

  Lemma model_eval_len bf x bf' :
    p_ev t obj cs bf x = Ok bf' -> length vars <= length x.
  Proof.
    intros E. unfold p_ev, model_eval in E.
    match type of E with rbind ?r _ = _ => destruct r as [vs|p] eqn:E1; [|discriminate] end. clear E.
    assert (G : forall (l : list (node T * nat)) acc r, foldR (fun vs vi => rbind (vget x (snd vi)) (fun xv => Ok (hinsert_val vs (fst vi, xv)))) l acc = Ok r ->
              forall vi, In vi l -> snd vi < length x).
    { induction l as [|vi l IH]; intros acc r E vi' Hin; [destruct Hin|]. cbn [foldR] in E.
      unfold vget in E. destruct (nth_error x (snd vi)) eqn:En; [|discriminate]. cbn [rbind] in E.
      destruct Hin as [<-|Hin]; [apply nth_error_Some; congruence|]. eapply IH; eauto. }
    fold vars in E1. specialize (G _ _ _ E1).
    destruct vars as [|v0 l] eqn:Ev; [cbn; lia|].
    destruct (nth_error (v0 :: l) (length l)) as [w|] eqn:En.
    - apply (enum_in (v0 :: l)) in En. specialize (G _ En). cbn in *. lia.
    - apply nth_error_None in En. cbn in En. lia.
  Qed.

  Definition same_but_bufs (p q : minlp T) : Prop :=
    m_x0 q = m_x0 p /\ m_a q = m_a p /\ m_b q = m_b p /\ m_l q = m_l p /\ m_u q = m_u p /\ m_p q = m_p p /\
    m_eval q = m_eval p.

  Lemma eval_step q0 x q' : same_but_bufs base q0 ->
       (m_bufs q0 = m_bufs base \/ exists y, length vars <= length y /\ m_bufs q0 = bufs_at y) ->
       minlp_evaluate q0 x = Ok q' ->
       length vars <= length x /\ m_bufs q' = bufs_at x /\ same_but_bufs base q'.
  Proof.
    destruct (base_bufs t init obj cs) as [Eb Ee]. fold base in Eb, Ee.
    intros (S1 & S2 & S3 & S4 & S5 & S6 & S7) HB E. unfold minlp_evaluate in E.
      destruct (m_eval q0 (m_bufs q0) x) as [bf|p] eqn:Ev; [|discriminate]. cbn [rbind] in E. inversion E; subst q'; clear E.
      cbn [m_bufs]. rewrite S7, Ee in Ev.
      enough (G : length vars <= length x /\ bf = bufs_at x).
      { destruct G as [G1 G2]. split; [exact G1|]. split; [exact G2|]. repeat split; cbn; assumption. }
      destruct (p_linear obj cs) eqn:El.
      - unfold linear_eval, dot, rassert, copy_from_slice in Ev.
        destruct (length (p_cvec t obj cs) =? length x) eqn:E1; [|discriminate]. cbn [rbind] in Ev.
        destruct (length (b_gphi (m_bufs q0)) =? _) eqn:E2; [|discriminate]. cbn [rbind] in Ev.
        apply Nat.eqb_eq in E1. unfold p_cvec in E1. rewrite map_length in E1. fold vars in E1. split; [lia|].
        inversion Ev. unfold bufs_at. rewrite El. unfold dot_val.
        destruct HB as [-> | (y & Hy & ->)].
        + rewrite Eb. reflexivity.
        + unfold bufs_at. rewrite El. reflexivity.
      - pose proof (model_eval_len _ _ _ Ev) as Hx. split; [exact Hx|].
        assert (G : p_ev t obj cs (m_bufs q0) x = Ok (bufs_at x)); [|congruence].
        destruct HB as [-> | (y & Hy & ->)].
        + rewrite Eb. apply nl_eval; auto; cbn [nl_bufs b_gphi b_hphi b_f b_j b_h].
          * apply repeat_length.
          * intros v Hv _. apply nth_repeat.
          * apply same_structure_refl.
          * apply repeat_length.
          * apply same_structure_refl.
          * fold vars. induction (p_hs t obj cs); constructor; auto. apply same_structure_refl.
        + apply nl_eval; auto; unfold bufs_at; rewrite El; cbn [b_gphi b_hphi b_f b_j b_h].
          * apply map_length.
          * intros v Hv Hn. rewrite (nth_map_default _ _ _ v) by (apply (ix_nth vars Hnd); auto). unfold lookup.
            replace (hget ptr_eq v _) with (@None T); [reflexivity|]. symmetry. revert Hn. clear.
            induction (sc_gphi obj) as [|[w e] l IH]; cbn; [reflexivity|]. destruct (ptr_eq v w); [discriminate|auto].
          * apply same_structure_data. rewrite map_length. unfold p_hphi, hess_of. cbn. symmetry. apply repeat_length.
          * apply map_length.
          * apply same_structure_data. rewrite map_length. unfold p_jmat. cbn. symmetry. apply repeat_length.
          * unfold p_hs. fold vars. clear. induction (cs_h cs) as [|hs l IH]; cbn [map]; constructor; auto.
            apply same_structure_data. rewrite map_length. unfold hess_of. cbn. symmetry. apply repeat_length.
  Qed.

  (** The state of the buffers in any history of calls. *)
  Lemma evolves_bufs q : evolves base q ->
    same_but_bufs base q /\ (m_bufs q = m_bufs base \/ exists x, length vars <= length x /\ m_bufs q = bufs_at x).
  Proof.
    induction 1 as [|q x q' Hq [IH1 IH2] E|q nu q' Hq [IH1 IH2] E].
    - split; [repeat split|auto].
    - destruct (eval_step q x q' IH1 IH2 E) as (A & B & C). split; [exact C|]. right. eauto.
    - unfold combine_h in E. destruct (rassert _) as [[]|p]; [|discriminate]. cbn [rbind] in E.
      match type of E with rbind ?r _ = _ => destruct r as [st|p] eqn:E1; [|discriminate] end. cbn [rbind] in E.
      inversion E; subst q'. cbn [m_bufs]. split; [|exact IH2].
      destruct IH1 as (S1 & S2 & S3 & S4 & S5 & S6 & S7). repeat split; cbn; assumption.
  Qed.

  (** Evaluation at [x], in any history of calls. *)
  Theorem evaluate_any q x : evolves base q -> length x = length vars ->
    exists q', minlp_evaluate q x = Ok q' /\ m_bufs q' = bufs_at x /\ same_but_bufs base q'.
  Proof.
    intros Hq Hx. destruct (evolves_bufs q Hq) as [(S1 & S2 & S3 & S4 & S5 & S6 & S7) HB].
    destruct (base_bufs t init obj cs) as [Eb Ee]. fold base in Eb, Ee.
    assert (G : exists bf, m_eval q (m_bufs q) x = Ok bf).
    { rewrite S7, Ee. destruct (p_linear obj cs) eqn:El.
      - unfold linear_eval, dot, rassert, copy_from_slice.
        replace (length (p_cvec t obj cs)) with (length vars) by (unfold p_cvec; rewrite map_length; reflexivity).
        rewrite Hx, Nat.eqb_refl. cbn [rbind].
        replace (length (b_gphi (m_bufs q))) with (length vars); [rewrite Nat.eqb_refl; cbn [rbind]; eauto|].
        destruct HB as [-> | (y & Hy & ->)].
        + rewrite Eb. symmetry. apply repeat_length.
        + unfold bufs_at. rewrite El. cbn [b_gphi]. unfold p_cvec. symmetry. apply map_length.
      - unfold p_ev. fold vars. rewrite (model_eval_ok vars Hnd (m_bufs q) x (sc_phi obj) (sc_gphi obj)); [eauto|auto|auto|lia|].
        repeat split.
        + destruct HB as [-> | (y & Hy & ->)]; [rewrite Eb; apply repeat_length|unfold bufs_at; rewrite El; apply map_length].
        + destruct HB as [-> | (y & Hy & ->)]; [rewrite Eb|unfold bufs_at; rewrite El]; cbn; rewrite !map_length; auto. apply repeat_length.
        + destruct HB as [-> | (y & Hy & ->)]; [rewrite Eb; apply repeat_length|unfold bufs_at; rewrite El; apply map_length].
        + destruct HB as [-> | (y & Hy & ->)]; [rewrite Eb|unfold bufs_at; rewrite El]; cbn; rewrite !map_length; auto. apply repeat_length.
        + destruct HB as [-> | (y & Hy & ->)]; [rewrite Eb|unfold bufs_at; rewrite El]; cbn [nl_bufs b_h]; unfold p_hs; fold vars; clear;
            induction (cs_h cs) as [|hs l IH]; cbn [map]; constructor; auto; cbn; rewrite !map_length; auto. apply repeat_length. }
    destruct G as [bf G].
    assert (E : exists q', minlp_evaluate q x = Ok q') by (unfold minlp_evaluate; rewrite G; cbn; eauto).
    destruct E as [q' E]. exists q'. split; [exact E|].
    destruct (evolves_bufs q Hq) as [HS HB']. apply (eval_step q x q' HS HB' E).
  Qed.
End EvalRun.
