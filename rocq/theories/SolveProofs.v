(** What [solve] records. *)
From Verif Require Import Base Num Node NodeInd NodeDiff NodeStd Constraint Matrix Problem ModelStd Model
     ExprSpec MapProofs ModelSpec.

Section Solve.
  Context {T : Type} `{Num T} `{HashOrd}.

  Lemma then_loop_none {S} (r : S * option panic) f m' :
    then_loop r f = (m', None) -> exists m1, r = (m1, None) /\ f m1 = (m', None).
  Proof. unfold then_loop. destruct r as [m1 [p|]]; cbn; intros E; [discriminate|]. eauto. Qed.

  Lemma loop_none {S A} (f : S -> A -> res S) a l s m' :
    loop_st f (a :: l) s = (m', None) <-> exists s1, f s a = Ok s1 /\ loop_st f l s1 = (m', None).
  Proof.
    cbn [loop_st]. destruct (f s a) as [s1|p]; split.
    - eauto.
    - intros (s2 & E & E'). congruence.
    - discriminate.
    - intros (s2 & E & E'). discriminate.
  Qed.

  (** The fields other than primals and duals. *)
  Definition rest (m : model T) := (md_objective m, md_constraints m, md_init m, md_status m).

  Lemma primals_loop (s : sol T) (l : list (node T * nat)) (m m' : model T) :
    loop_st (add_primal s) l m = (m', None) ->
    nodupk ptr_eq (map fst (md_primals m) ++ map fst l) ->
    rest m' = rest m /\ md_duals m' = md_duals m /\
    Forall (fun vi => snd vi < length (s_x s)) l /\
    md_primals m' = md_primals m ++ map (fun vi => (fst vi, nth (snd vi) (s_x s) n0)) l.
  Proof.
    revert m; induction l as [|[v i] l IH]; intros m E Hn.
    - cbn in E. injection E as <-. rewrite app_nil_r. auto.
    - apply loop_none in E as (m1 & E1 & E). unfold add_primal, vget in E1. cbn [snd fst] in E1.
      destruct (nth_error (s_x s) i) as [x|] eqn:Ex; [|discriminate]. cbn [rbind] in E1. injection E1 as <-.
      assert (Enew : hinsert ptr_eq v x (md_primals m) = md_primals m ++ [(v, x)]).
      { apply hinsert_new. apply not_true_is_false. intros Ee. apply existsb_exists in Ee as (w & Hw & Ep).
        revert Hn Hw. generalize (map fst (md_primals m)) as L. clear -Ep. induction L as [|a L IH]; [intros _ []|].
        cbn [app nodupk map fst]. intros [Hx Hn] [->|Hw]; auto. rewrite existsb_app in Hx. cbn in Hx.
        rewrite ptr_eq_sym in Ep. rewrite Ep in Hx. cbn in Hx. rewrite orb_true_r in Hx. discriminate. }
      apply IH in E.
      + destruct E as (R1 & R2 & R3 & R4). cbn [md_primals md_duals] in *. split; [exact R1|]. split; [exact R2|]. split.
        * constructor; [|exact R3]. apply nth_error_Some. cbn. congruence.
        * rewrite R4, Enew, <- app_assoc. cbn [app map fst snd].
          rewrite (nth_error_nth _ _ _ Ex). reflexivity.
      + cbn [md_primals]. rewrite Enew, map_app, <- app_assoc. cbn [map app fst]. exact Hn.
  Qed.
  Lemma primals_loop_ok (s : sol T) (l : list (node T * nat)) (m : model T) : Forall (fun vi => snd vi < length (s_x s)) l -> snd (loop_st (add_primal s) l m) = None.
  Proof.
    intros HF; revert m; induction HF as [|[v i] l Hi HF IH]; intros m; [reflexivity|].
    cbn [loop_st]. unfold add_primal, vget. cbn [snd fst] in *.
    destruct (nth_error (s_x s) i) eqn:E; [|apply nth_error_None in E; lia]. cbn [rbind]. apply IH.
  Qed.
  Lemma duals_loop_ok (d : list T) (l : list (nat * constraint T)) (m : model T) : Forall (fun ic => fst ic < length d) l -> snd (loop_st (add_dual d) l m) = None.
  Proof.
    intros HF; revert m; induction HF as [|[i c] l Hi HF IH]; intros m; [reflexivity|].
    cbn [loop_st]. unfold add_dual, vget. cbn [snd fst] in *.
    destruct (nth_error d i) eqn:E; [|apply nth_error_None in E; lia]. cbn [rbind]. apply IH.
  Qed.

  Lemma constr_eqb_refl (c : constraint T) : constr_eqb c c = true.
  Proof. apply Nat.eqb_refl. Qed.
  Lemma constr_eqb_sym (a b : constraint T) : constr_eqb a b = constr_eqb b a.
  Proof. apply Nat.eqb_sym. Qed.
  Lemma constr_eqb_trans (a b c : constraint T) : constr_eqb a b = true -> constr_eqb b c = true -> constr_eqb a c = true.
  Proof. unfold constr_eqb. rewrite !Nat.eqb_eq. congruence. Qed.

  (** The dual loops as one loop over (array, (index, constraint)). *)
  Definition add_dual3 (m : model T) (t : list T * (nat * constraint T)) : res (model T) := add_dual (fst t) m (snd t).
  Lemma loop_tasks (d : list T) l m : loop_st (add_dual d) l m = loop_st add_dual3 (map (pair d) l) m.
  Proof.
    revert m; induction l as [|a l IH]; intros m; [reflexivity|]. cbn [map loop_st]. unfold add_dual3 at 1. cbn [fst snd].
    destruct (add_dual d m a); auto.
  Qed.
  Lemma loop_app {S A} (f : S -> A -> res S) l l' s :
    loop_st f (l ++ l') s = then_loop (loop_st f l s) (loop_st f l').
  Proof.
    revert s; induction l as [|a l IH]; intros s; [reflexivity|]. cbn [app loop_st]. destruct (f s a); auto.
  Qed.
  Definition dual_tasks (t : nat) (sp : std_prob T) (s : sol T) :=
    map (pair (s_lam s)) (ord 11 t (sp_acons sp)) ++ map (pair (s_nu s)) (ord 12 t (sp_jcons sp)) ++
    map (pair (s_mu s)) (ord 13 t (sp_ucons sp)) ++ map (pair (s_pi s)) (ord 14 t (sp_lcons sp)).

  Lemma then_loop_ext {S} (r : S * option panic) f g : (forall s, f s = g s) -> then_loop r f = then_loop r g.
  Proof. intros E. unfold then_loop. destruct (snd r); auto. Qed.
  Lemma record_tasks t sp st s (m : model T) :
    record_solution t sp st s m =
    then_loop (loop_st (add_primal s) (ord 10 t (sp_var2index sp))
                       (mk_model (md_objective m) (md_constraints m) (md_init m) (Some st) (md_primals m) (md_duals m)))
              (loop_st add_dual3 (dual_tasks t sp s)).
  Proof.
    unfold record_solution, dual_tasks. apply then_loop_ext. intros m1.
    rewrite loop_app, <- loop_tasks. apply then_loop_ext. intros m2.
    rewrite loop_app, <- loop_tasks. apply then_loop_ext. intros m3.
    rewrite loop_app, <- loop_tasks. apply then_loop_ext. intros m4. apply loop_tasks.
  Qed.

  (** The value a task writes. *)
  Definition tval (t : list T * (nat * constraint T)) : option T := nth_error (fst t) (fst (snd t)).
  Definition tcon (t : list T * (nat * constraint T)) : constraint T := snd (snd t).

  Lemma tasks_loop L (m m' : model T) :
    loop_st add_dual3 L m = (m', None) ->
    rest m' = rest m /\ md_primals m' = md_primals m /\
    Forall (fun t => tval t <> None) L /\
    (forall c, (forall t, In t L -> constr_eqb c (tcon t) = false) ->
        hget constr_eqb c (md_duals m') = hget constr_eqb c (md_duals m)) /\
    (forall c t, In t L -> constr_eqb c (tcon t) = true ->
        (forall t', In t' L -> constr_eqb c (tcon t') = true -> tval t' = tval t) ->
        hget constr_eqb c (md_duals m') = tval t) /\
    (forall c, In c (map fst (md_duals m')) -> In c (map fst (md_duals m)) \/ In c (map tcon L)).
  Proof.
    revert m; induction L as [|t0 L IH]; intros m E.
    - cbn in E. injection E as <-. repeat split; auto. intros c i [].
    - apply loop_none in E as (m1 & E1 & E). destruct t0 as [d [i0 c0]]. unfold add_dual3, add_dual, vget in E1. cbn [snd fst] in E1.
      destruct (nth_error d i0) as [x0|] eqn:Ex; [|discriminate]. cbn [rbind] in E1. injection E1 as <-.
      apply IH in E as (R1 & R2 & R3 & R5 & R6 & R7). cbn [md_primals md_duals] in *.
      assert (Hsame : forall c, constr_eqb c c0 = true -> hget constr_eqb c (hinsert constr_eqb c0 x0 (md_duals m)) = Some x0).
      { intros c Hc. apply hget_hinsert_same; eauto 2 using constr_eqb_refl, constr_eqb_sym, constr_eqb_trans. }
      assert (Hoth : forall c, constr_eqb c c0 = false -> hget constr_eqb c (hinsert constr_eqb c0 x0 (md_duals m)) = hget constr_eqb c (md_duals m)).
      { intros c Hc. apply hget_hinsert_other; eauto 2 using constr_eqb_refl, constr_eqb_sym, constr_eqb_trans. }
      split; [exact R1|]. split; [exact R2|]. split.
      { constructor; [|exact R3]. unfold tval. cbn [fst snd]. congruence. }
      split; [|split].
      + intros c Hno. rewrite R5.
        * apply Hoth. apply (Hno (d, (i0, c0))). cbn; auto.
        * intros t Hin. apply Hno. cbn; auto.
      + intros c t Hin Ec Hu.
        destruct (existsb (fun t => constr_eqb c (tcon t)) L) eqn:Ee.
        * apply existsb_exists in Ee as (t' & Hin' & Ec').
          rewrite <- (Hu t' (or_intror Hin') Ec'). apply R6; auto.
          intros t2 H2 E2. rewrite (Hu t2 (or_intror H2) E2), (Hu t' (or_intror Hin') Ec'). reflexivity.
        * assert (Hno : forall t', In t' L -> constr_eqb c (tcon t') = false).
          { intros t' Hj. apply not_true_is_false. intros Ec'. rewrite <- not_true_iff_false in Ee. apply Ee.
            apply existsb_exists. exists t'. auto. }
          destruct Hin as [<-|Hin].
          -- rewrite (R5 c Hno). rewrite (Hsame c Ec). unfold tval. cbn [fst snd]. congruence.
          -- rewrite (Hno _ Hin) in Ec. discriminate.
      + intros c Hc. apply R7 in Hc as [Hc|Hc]; [|cbn; auto].
        rewrite keys_hinsert in Hc. destruct (existsb (constr_eqb c0) (map fst (md_duals m))); [auto|].
        apply in_app_or in Hc as [Hc|[<-|[]]]; cbn; auto.
  Qed.
  Lemma tasks_loop_ok L (m : model T) : Forall (fun t => tval t <> None) L -> snd (loop_st add_dual3 L m) = None.
  Proof.
    intros HF; revert m; induction HF as [|[d [i c]] L Hi HF IH]; intros m; [reflexivity|].
    cbn [loop_st]. unfold tval in Hi. unfold add_dual3 at 1. unfold add_dual, vget. cbn [snd fst] in *.
    destruct (nth_error d i) eqn:E; [|congruence]. cbn [rbind]. apply IH.
  Qed.

  Lemma loop_none_snd {S A} (f : S -> A -> res S) l s : snd (loop_st f l s) = None -> exists s', loop_st f l s = (s', None).
  Proof. destruct (loop_st f l s) as [s' o]. cbn. intros ->. eauto. Qed.

  (** What a completed recording leaves, from a model without results. *)
  Record recorded (t : nat) (sp : std_prob T) (st : status) (s : sol T) (m m' : model T) : Prop := {
    rc_status : md_status m' = Some st;
    rc_inputs : md_objective m' = md_objective m /\ md_constraints m' = md_constraints m /\ md_init m' = md_init m;
    rc_primals : md_primals m' = map (fun vi => (fst vi, nth (snd vi) (s_x s) n0)) (ord 10 t (sp_var2index sp));
    rc_len : Forall (fun vi => snd vi < length (s_x s)) (sp_var2index sp);
    rc_tasks : Forall (fun t => tval t <> None) (dual_tasks t sp s);
    rc_none : forall c, (forall ts, In ts (dual_tasks t sp s) -> constr_eqb c (tcon ts) = false) ->
                hget constr_eqb c (md_duals m') = None;
    rc_last : forall L1 L2 c ts, dual_tasks t sp s = L1 ++ L2 -> In ts L2 -> constr_eqb c (tcon ts) = true ->
                (forall ts', In ts' L2 -> constr_eqb c (tcon ts') = true -> tval ts' = tval ts) ->
                hget constr_eqb c (md_duals m') = tval ts;
    rc_keys : forall c, In c (map fst (md_duals m')) -> In c (map tcon (dual_tasks t sp s))
  }.
  Lemma record_spec t sp st s (m m' : model T) :
    record_solution t sp st s (reset m) = (m', None) -> nodupk ptr_eq (map fst (sp_var2index sp)) ->
    recorded t sp st s m m'.
  Proof.
    rewrite record_tasks. cbn [reset md_objective md_constraints md_init md_primals md_duals]. intros E Hn.
    apply then_loop_none in E as (m1 & E1 & E2).
    apply primals_loop in E1.
    2:{ cbn [md_primals map app]. eapply pnodup_perm; [|exact Hn]. apply Permutation_map, Permutation_sym, ord_perm. }
    destruct E1 as (P1 & P2 & P3 & P4). cbn [md_primals md_duals app] in *.
    pose proof (tasks_loop _ _ _ E2) as (D1 & D2 & D3 & D4 & _ & D6). unfold rest in P1, D1. cbn in P1.
    assert (E1' : (md_objective m', md_constraints m', md_init m', md_status m') = (md_objective m, md_constraints m, md_init m, Some st)) by congruence.
    constructor.
    - congruence.
    - repeat split; congruence.
    - rewrite D2, P4. reflexivity.
    - eapply Permutation_Forall; [apply ord_perm|exact P3].
    - exact D3.
    - intros c Hc. rewrite (D4 c Hc), P2. reflexivity.
    - intros L1 L2 c ts EL Hin Ec Hu. rewrite EL, loop_app in E2. apply then_loop_none in E2 as (m2 & _ & E3).
      pose proof (tasks_loop _ _ _ E3) as (_ & _ & _ & _ & D5 & _). exact (D5 c ts Hin Ec Hu).
    - intros c Hc. apply D6 in Hc. rewrite P2 in Hc. destruct Hc as [[]|Hc]. exact Hc.
  Qed.
  Lemma record_total t sp st s (m : model T) :
    Forall (fun vi => snd vi < length (s_x s)) (sp_var2index sp) ->
    Forall (fun t => tval t <> None) (dual_tasks t sp s) ->
    exists m', record_solution t sp st s m = (m', None).
  Proof.
    intros HF HL. rewrite record_tasks. unfold then_loop.
    rewrite primals_loop_ok by (eapply Permutation_Forall; [apply Permutation_sym, ord_perm|exact HF]).
    apply loop_none_snd, tasks_loop_ok. exact HL.
  Qed.
  Lemma std_problem_reset (m : model T) k : std_problem (reset m) k = std_problem m k.
  Proof. reflexivity. Qed.
  Lemma solve_ok solver (m m' : model T) k k' :
    solve solver m k = (m', Returned (inl tt), k') ->
    exists sp st s, std_problem m k = Ok (sp, k') /\ solver (sp_prob sp) = Ok (inl (st, s)) /\
                    record_solution k' sp st s (reset m) = (m', None).
  Proof.
    unfold solve. rewrite std_problem_reset. destruct (std_problem m k) as [[sp k1]|p]; [|discriminate].
    destruct (solver (sp_prob sp)) as [[[st s]|e]|p] eqn:Es; try discriminate.
    destruct (record_solution k1 sp st s (reset m)) as [m2 [p|]] eqn:Er; [discriminate|].
    intros E. injection E as <- <-. exists sp, st, s. auto.
  Qed.
End Solve.
